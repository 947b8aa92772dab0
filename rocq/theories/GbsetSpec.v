(* Calls made one after the other. *)
From Coq Require Import ZArith List.
From Verif Require Import Base TaskModel TaskSpec DriverModel.
Import ListNotations.
Open Scope Z_scope.

(* Calls made one after the other, the codes they return being ignored, end with memory satisfying
   Q, on every schedule of each of them. *)
Fixpoint calls_ensure {V} (ds : list (driver V)) (M : mem V) (Q : mem V -> Prop) : Prop :=
  match ds with
  | [] => Q M
  | Returns _ :: ds => calls_ensure ds M Q
  | Runs ks :: ds => region_ensures ks M (fun M' => calls_ensure ds M' Q)
  end.

(* more than kl below or more than ku above the diagonal *)
Definition off_band (kl ku i j : Z) : Prop := kl < i - j \/ ku < j - i.
