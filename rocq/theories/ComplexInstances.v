(* The complex numbers, with their square roots and their positive numbers; used in examples.
   They rest on the axioms of the real numbers of the standard library. *)
From Coq Require Import Reals ZArith Ring Field Bool Lia Lra.
From Verif Require Import Base NumModel FieldModel PotrfModel PotrfSpec.
Open Scope R_scope.

(* include/plasma_types.h:171 plasma_complex64_t with real parts *)
Definition cadd (x y : R * R) := (fst x + fst y, snd x + snd y).
Definition cmul (x y : R * R) := (fst x * fst y - snd x * snd y, fst x * snd y + snd x * fst y).
Definition csub (x y : R * R) := (fst x - fst y, snd x - snd y).
Definition copp (x : R * R) := (- fst x, - snd x).
Definition cconj (x : R * R) := (fst x, - snd x).
Definition ceqb (x y : R * R) : bool :=
  (if Req_EM_T (fst x) (fst y) then true else false) && (if Req_EM_T (snd x) (snd y) then true else false).
Definition cnorm (x : R * R) := fst x * fst x + snd x * snd x.
Definition cinv (x : R * R) := (fst x / cnorm x, - snd x / cnorm x).

Definition C_numbers : numbers.
Proof.
  refine (mknumbers (R * R) (0, 0) (1, 0) cadd cmul csub copp cconj ceqb _ _ _ _ _).
  - constructor; intros; repeat match goal with x : (R * R)%type |- _ => destruct x end;
      unfold cadd, cmul, csub, copp; cbn [fst snd]; f_equal; ring.
  - intros [a b] [c d]. unfold cconj, cadd. cbn [fst snd]. f_equal; ring.
  - intros [a b] [c d]. unfold cconj, cmul. cbn [fst snd]. f_equal; ring.
  - intros [a b]. unfold cconj. cbn [fst snd]. f_equal. ring.
  - intros [a b] [c d]. unfold ceqb. cbn [fst snd]. split.
    + destruct (Req_EM_T a c), (Req_EM_T b d); cbn; try discriminate. intros _. subst. reflexivity.
    + intros E. injection E as -> ->. destruct (Req_EM_T c c), (Req_EM_T d d); try contradiction. reflexivity.
Defined.

Lemma cnorm_pos : forall x : R * R, x <> (0, 0) -> 0 < cnorm x.
Proof.
  intros [a b] Hx. unfold cnorm. cbn [fst snd].
  destruct (Req_EM_T a 0) as [->|Ha]; [destruct (Req_EM_T b 0) as [->|Hb]; [contradiction Hx; reflexivity|]|].
  - nra.
  - assert (0 < a * a) by nra. nra.
Qed.

Definition C_fields : fields.
Proof.
  refine (mkfields C_numbers cinv _). intros [a b] Hx.
  change (cmul (cinv (a, b)) (a, b) = (1, 0)). pose proof (cnorm_pos (a, b) Hx) as NZ.
  unfold cmul, cinv. remember (cnorm (a, b)) as q eqn:Eq. unfold cnorm in Eq. cbn [fst snd] in *.
  f_equal; [|field; lra]. transitivity ((a * a + b * b) / q); [field; lra|].
  rewrite <- Eq. field; lra.
Defined.

(* core_blas/core_zpotrf.c:55-58: the square root of a positive pivot *)
Definition C_roots : roots C_fields.
Proof.
  refine (mkroots C_fields
    (fun z : R * R => if Rlt_dec 0 (fst z) then if Req_EM_T (snd z) 0 then Some (sqrt (fst z), 0) else None else None) _ _ _ _).
  - intros [a b] r. cbn [fst snd]. destruct (Rlt_dec 0 a) as [Ha|]; [|discriminate].
    destruct (Req_EM_T b 0) as [->|]; [|discriminate]. intros E. injection E as <-.
    change (cmul (sqrt a, 0) (sqrt a, 0) = (a, 0)). unfold cmul. cbn [fst snd]. rewrite sqrt_sqrt by lra. f_equal; ring.
  - intros [a b] r. cbn [fst snd]. destruct (Rlt_dec 0 a) as [Ha|]; [|discriminate].
    destruct (Req_EM_T b 0) as [->|]; [|discriminate]. intros E. injection E as <-.
    change (cconj (sqrt a, 0) = (sqrt a, 0)). unfold cconj. cbn [fst snd]. f_equal. ring.
  - intros [a b] r. cbn [fst snd]. destruct (Rlt_dec 0 a) as [Ha|]; [|discriminate].
    destruct (Req_EM_T b 0) as [->|]; [|discriminate]. intros E. injection E as <-. intros E.
    apply (f_equal fst) in E. cbn in E. pose proof (sqrt_lt_R0 a Ha). lra.
  - intros E. apply (f_equal fst) in E. cbn in E. lra.
Defined.

Definition C_positivity : positivity C_fields.
Proof.
  refine (mkpositivity C_fields (fun z : R * R => 0 < fst z /\ snd z = 0) _ _ _).
  - intros [a b] [c d]. change (0 < a /\ b = 0 -> 0 < c /\ d = 0 -> 0 < a + c /\ b + d = 0). lra.
  - intros [a b] Hx. pose proof (cnorm_pos (a, b) Hx) as H. unfold cnorm in H. cbn [fst snd] in H.
    change (0 < a * a - - b * b /\ a * b + - b * a = 0). split; [lra|ring].
  - change (~ (0 < 0 /\ 0 = 0)). lra.
Defined.

Lemma C_has_roots : has_roots C_positivity C_roots.
Proof.
  intros [a b] HR HP. change (0 < a /\ b = 0) in HP. cbn. destruct HP as [Ha ->].
  destruct (Rlt_dec 0 a); [|contradiction]. destruct (Req_EM_T 0 0); [discriminate|contradiction].
Qed.
