(* Independent specifications for the control layer: what a program may expect from a
   history of calls, without reference to the process state of the model. Histories are
   read from the most recent call backwards. *)
From Coq Require Import ZArith List Bool.
From Verif Require Import ControlModel.
Import ListNotations.
Open Scope Z_scope.

(* option names (include/plasma_types.h:157-165), default values (as documented by
   control/context.c:161-177) and admissible values *)
Inductive option_name := ONb | OIb | OThreads | OHouseholder | OTuning.
Definition option_code (o : option_name) : Z :=
  match o with OTuning => 0 | ONb => 1 | OIb => 2 | OThreads => 4 | OHouseholder => 5 end.
Definition option_default (o : option_name) : Z :=
  match o with OTuning => 1 | ONb => 256 | OIb => 64 | OThreads => 1 | OHouseholder => 0 end.
Definition admissible (o : option_name) (v : Z) : Prop :=
  match o with ONb | OIb | OThreads => v > 0 | OHouseholder | OTuning => v = 0 \/ v = 1 end.

(* the library is ready for use after these calls (newest first) *)
Inductive ready : list call -> Prop :=
| ready_init : forall h, ready (Init false :: h)
| ready_keep : forall c h, ready h -> (forall par, c = Finalize par -> par = true) -> ready (c :: h).

(* [holds h o v]: after the calls h (newest first) option o has value v *)
Inductive holds : list call -> option_name -> Z -> Prop :=
| holds_default : forall h o, ~ ready h -> holds (Init false :: h) o (option_default o)
| holds_set : forall h o v, ready h -> admissible o v -> holds (Set_ false (option_code o) v :: h) o v
| holds_keep : forall c h o v, ready h -> ready (c :: h) -> holds h o v ->
    (forall w, c = Set_ false (option_code o) w -> ~ admissible o w) -> holds (c :: h) o v.

(* asynchronous status: [failure h q] is the most recent failure (request, status) recorded
   in sequence q since its last initialisation *)
Fixpoint failure (h : list acall) (q : Z) : option (Z * Z) :=
  match h with
  | [] => None
  | RequestFail q' r st :: h' => if q' =? q then Some (r, st) else failure h' q
  | SequenceInit q' :: h' => if q' =? q then None else failure h' q
  | RequestInit _ :: h' => failure h' q
  end.

(* LAPACK's option characters: for each option, the constant and the letters that denote it,
   as ASCII codes (include/plasma_types.h:74-114 and the LAPACK manual); the first letter is
   the one LAPACK prints *)
Definition option_table := list (Z * list Z).
Definition t_trans : option_table := [(111, [78;110]); (112, [84;116]); (113, [67;99])].
Definition t_diag : option_table := [(131, [78;110]); (132, [85;117])].
Definition t_side : option_table := [(141, [76;108]); (142, [82;114])].
Definition t_direct : option_table := [(391, [70;102]); (392, [66;98])].
Definition t_storev : option_table := [(401, [67;99]); (402, [82;114])].
Definition t_uplo : option_table := [(121, [85;117]); (122, [76;108])].
Definition t_norm : option_table :=
  [(171, [79;111;49]); (174, [70;102;69;101]); (175, [73;105]); (177, [77;109])].
Definition t_job : option_table :=
  [(305, [65;97]); (306, [83;115]); (302, [86;118]); (301, [78;110]); (304, [73;105])].
Definition t_range : option_table := [(351, [65;97]); (352, [86;118]); (353, [73;105])].

(* [f] reads option characters as the table says *)
Definition reads (f : Z -> Z) (t : option_table) : Prop :=
  (forall k l c, In (k, l) t -> In c l -> f c = k) /\
  (forall k c, In k (map fst t) -> f c = k -> exists l, In (k, l) t /\ In c l).

(* [g] writes each constant of the table as one of its own letters *)
Definition writes (g : Z -> Z) (t : option_table) : Prop :=
  forall k l, In (k, l) t -> In (g k) l.
