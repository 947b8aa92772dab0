(* Instances of the numbers the theorems quantify over, used in the examples. *)
From Coq Require Import ZArith Ring Bool Lia.
From Verif Require Import Base NumModel.
Open Scope Z_scope.

(* integers; plasma_types.h:171 plasma_complex64_t replaced by Z, conj() by the identity *)
Definition Z_numbers : numbers.
Proof.
  refine (mknumbers Z 0 1 Z.add Z.mul Z.sub Z.opp (fun x => x) Z.eqb _ _ _ _ _); auto.
  - constructor; intros; ring.
  - apply Z.eqb_eq.
Defined.

(* Gaussian integers a + b i, with complex conjugation; plasma_types.h:171 *)
Definition gadd (x y : Z * Z) := (fst x + fst y, snd x + snd y).
Definition gmul (x y : Z * Z) := (fst x * fst y - snd x * snd y, fst x * snd y + snd x * fst y).
Definition gsub (x y : Z * Z) := (fst x - fst y, snd x - snd y).
Definition gopp (x : Z * Z) := (- fst x, - snd x).
Definition gconj (x : Z * Z) := (fst x, - snd x).
Definition geqb (x y : Z * Z) := (fst x =? fst y) && (snd x =? snd y).
Definition G_numbers : numbers.
Proof.
  refine (mknumbers (Z * Z) (0, 0) (1, 0) gadd gmul gsub gopp gconj geqb _ _ _ _ _).
  - constructor; intros; repeat match goal with x : (Z * Z)%type |- _ => destruct x end;
      unfold gadd, gmul, gsub, gopp; cbn [fst snd]; f_equal; ring.
  - intros [a b] [c d]. unfold gconj, gadd. cbn [fst snd]. f_equal; ring.
  - intros [a b] [c d]. unfold gconj, gmul. cbn [fst snd]. f_equal; ring.
  - intros [a b]. unfold gconj. cbn [fst snd]. f_equal. ring.
  - intros [a b] [c d]. unfold geqb. cbn [fst snd]. rewrite andb_true_iff, !Z.eqb_eq. split.
    + intros [-> ->]. reflexivity.
    + intros E. injection E as -> ->. auto.
Defined.
