(* Specification vocabulary for plasma_zgbsv. *)
From Coq Require Import ZArith List.
From Verif Require Import Base TaskModel TaskSpec GuardSpec NormSpec GbsvModel.
Import ListNotations.
Open Scope Z_scope.

(* The routine ends, on every schedule, and Q holds of the final memory and the code returned. *)
Definition sdriver_ensures {V} (d : sdriver V) (M : mem V) (Q : mem V -> Z -> Prop) : Prop :=
  match d with
  | SReturns code => Q M code
  | SRuns first main rest =>
      region_ensures first M (fun M1 =>
        gregion_ensures main M1 (fun M2 st =>
          if st =? 0 then phases_ensures (rest M2) M2 (fun M' => Q M' 0) else Q M2 st))
  end.
