(* Proofs about argument checks. *)
From Coq Require Import ZArith List Bool Lia.
From Verif Require Import Base ArgsModel ArgsSpec.
Import ListNotations.
Open Scope Z_scope.

Lemma one_of_in : forall x l, one_of x l = true <-> In x l.
Proof.
  intros. unfold one_of. rewrite existsb_exists. split.
  - intros (y & I & E). apply Z.eqb_eq in E. subst. assumption.
  - intros I. exists x. split; [assumption|]. apply Z.eqb_refl.
Qed.

(* the code as a proposition *)
Lemma bad_one_of : forall x l, negb (one_of x l) = true <-> ~ In x l.
Proof. intros. rewrite negb_true_iff, <- not_true_iff_false, one_of_in. tauto. Qed.

Lemma step_ok : forall (bad : bool) (P : Prop) p l ls,
  (bad = true <-> ~ P) -> (bad = false -> reports ls (arg_code l)) -> (bad = false -> P) ->
  reports ((p, P) :: ls) (arg_code ((bad, - p) :: l)).
Proof.
  intros bad P p l ls H K Q. cbn [arg_code]. destruct bad.
  - apply reports_here. apply H. reflexivity.
  - apply reports_later; auto.
Qed.

Lemma step_one_of : forall x s p l ls, reports ls (arg_code l) ->
  reports ((p, In x s) :: ls) (arg_code ((negb (one_of x s), - p) :: l)).
Proof.
  intros. apply step_ok; auto; [apply bad_one_of|].
  intros E. apply negb_false_iff in E. apply one_of_in. assumption.
Qed.
Lemma step_nn : forall x p l ls, reports ls (arg_code l) ->
  reports ((p, 0 <= x) :: ls) (arg_code ((x <? 0, - p) :: l)).
Proof. intros. apply step_ok; auto; [rewrite Z.ltb_lt; lia|]. intros E. apply Z.ltb_ge in E. lia. Qed.
Lemma step_ld : forall x b p l ls, reports ls (arg_code l) ->
  reports ((p, Z.max 1 b <= x) :: ls) (arg_code ((x <? Z.max 1 b, - p) :: l)).
Proof. intros. apply step_ok; auto; [rewrite Z.ltb_lt; lia|]. intros E. apply Z.ltb_ge in E. lia. Qed.
Lemma step_gen : forall (bad : bool) (P : Prop) p l ls, (bad = true -> ~ P) -> (bad = false -> P) ->
  reports ls (arg_code l) -> reports ((p, P) :: ls) (arg_code ((bad, - p) :: l)).
Proof.
  intros bad P p l ls H Q K. apply step_ok; auto. split; [apply H|]. destruct bad; [reflexivity|].
  intros NP. exfalso. apply NP. apply Q. reflexivity.
Qed.

Ltac bools :=
  repeat rewrite ?orb_true_iff, ?orb_false_iff, ?andb_true_iff, ?andb_false_iff, ?negb_true_iff, ?negb_false_iff,
    ?Z.ltb_lt, ?Z.ltb_ge, ?Z.eqb_eq, ?Z.eqb_neq in *.
Ltac args_tac :=
  first
  [ apply reports_ok
  | apply step_one_of; args_tac
  | apply step_nn; args_tac
  | apply step_ld; args_tac
  | apply step_gen; [intros ?; bools; intuition lia|intros ?; bools; intuition lia|args_tac] ].

Ltac first_bad :=
  first [ apply reports_here; cbn; intuition lia
        | apply reports_later; [cbn; intuition lia|]; first_bad ].

Ltac rejects_tac :=
  cbn [arg_code];
  repeat match goal with
  | |- context [if negb (one_of ?x ?l) then Zneg _ else _] =>
      let E := fresh "E" in destruct (negb (one_of x l)) eqn:E;
      [apply bad_one_of in E; split; [discriminate|intros H; exfalso; apply E; tauto]
      |apply negb_false_iff in E; apply one_of_in in E]
  | |- context [if ?b then Zneg _ else _] =>
      let E := fresh "E" in destruct b eqn:E;
      [split; [discriminate|intros H; exfalso; bools; intuition lia]|]
  end; split; [intros _|reflexivity]; bools; intuition lia.

Lemma reports_fun : forall l c c', reports l c -> reports l c' -> c = c'.
Proof.
  intros l c c' H. revert c'. induction H as [|p P l NP|p P l c HP H IH]; intros c' H'.
  - inversion H'. reflexivity.
  - inversion H'; [reflexivity|contradiction].
  - inversion H'; [contradiction|]. apply IH. assumption.
Qed.

Lemma args_clag2z : forall m n ldas lda, reports (legal_clag2z m n ldas lda) (arg_code (chk_clag2z m n ldas lda)).
Proof. intros. unfold legal_clag2z, chk_clag2z. args_tac. Qed.
Lemma args_dzamax : forall colrow m n lda, reports (legal_dzamax colrow m n lda) (arg_code (chk_dzamax colrow m n lda)).
Proof. intros. unfold legal_dzamax, chk_dzamax. args_tac. Qed.
Lemma args_zcgbsv_refuted : exists n kl ku nrhs ldab ldb ldx, forall c, reports (legal_zcgbsv n kl ku nrhs ldab ldb ldx) c -> arg_code (chk_zcgbsv n kl ku nrhs ldab ldb ldx) <> c.
Proof.
  exists 1, 0, 0, (-1), 1, 1, 1. intros c H. rewrite (reports_fun _ c (-4) H); [discriminate|]. unfold legal_zcgbsv. first_bad.
Qed.
Lemma args_zcgesv : forall n nrhs lda ldb ldx, reports (legal_zcgesv n nrhs lda ldb ldx) (arg_code (chk_zcgesv n nrhs lda ldb ldx)).
Proof. intros. unfold legal_zcgesv, chk_zcgesv. args_tac. Qed.
Lemma args_zcposv : forall uplo n nrhs lda ldb ldx, reports (legal_zcposv uplo n nrhs lda ldb ldx) (arg_code (chk_zcposv uplo n nrhs lda ldb ldx)).
Proof. intros. unfold legal_zcposv, chk_zcposv. args_tac. Qed.
Lemma args_zgbmm_refuted : exists transa transb m n k kl ku lda ldb ldc, forall c, reports (legal_zgbmm transa transb m n k kl ku lda ldb ldc) c -> arg_code (chk_zgbmm transa transb m n k kl ku lda ldb ldc) <> c.
Proof.
  exists 111, 111, 1, 1, 1, 0, 0, 0, 1, 1. intros c H. rewrite (reports_fun _ c (-10) H); [discriminate|]. unfold legal_zgbmm. first_bad.
Qed.
Lemma args_zgbmm_rejects : forall transa transb m n k kl ku lda ldb ldc, arg_code (chk_zgbmm transa transb m n k kl ku lda ldb ldc) = 0 <-> ((In transa [111;112;113]) /\ (In transb [111;112;113]) /\ (0 <= m) /\ (0 <= n) /\ (0 <= k) /\ (0 <= kl <= m - 1) /\ (0 <= ku <= k - 1) /\ (Z.max 1 (if transa =? 111 then m else k) <= lda) /\ (Z.max 1 (if transb =? 111 then k else n) <= ldb) /\ (Z.max 1 m <= ldc)).
Proof. intros. unfold chk_zgbmm. rejects_tac. Qed.
Lemma args_zgbsv_refuted : exists n kl ku nrhs ldab ldb, forall c, reports (legal_zgbsv n kl ku nrhs ldab ldb) c -> arg_code (chk_zgbsv n kl ku nrhs ldab ldb) <> c.
Proof.
  exists 1, 0, 0, 1, 1, 0. intros c H. rewrite (reports_fun _ c (-9) H); [discriminate|]. unfold legal_zgbsv. first_bad.
Qed.
Lemma args_zgbsv_rejects : forall n kl ku nrhs ldab ldb, arg_code (chk_zgbsv n kl ku nrhs ldab ldb) = 0 <-> ((0 <= n) /\ (0 <= kl) /\ (0 <= ku) /\ (0 <= nrhs) /\ (Z.max 1 (1 + kl + ku) <= ldab) /\ (Z.max 1 n <= ldb)).
Proof. intros. unfold chk_zgbsv. rejects_tac. Qed.
Lemma args_zgbtrf : forall m n kl ku ldab, reports (legal_zgbtrf m n kl ku ldab) (arg_code (chk_zgbtrf m n kl ku ldab)).
Proof. intros. unfold legal_zgbtrf, chk_zgbtrf. args_tac. Qed.
Lemma args_zgbtrs : forall trans n kl ku nrhs ldab ldb, reports (legal_zgbtrs trans n kl ku nrhs ldab ldb) (arg_code (chk_zgbtrs trans n kl ku nrhs ldab ldb)).
Proof. intros. unfold legal_zgbtrs, chk_zgbtrs. args_tac. Qed.
Lemma args_zgeadd : forall transa m n pA lda pB ldb, reports (legal_zgeadd transa m n pA lda pB ldb) (arg_code (chk_zgeadd transa m n pA lda pB ldb)).
Proof. intros. unfold legal_zgeadd, chk_zgeadd. args_tac. Qed.
Lemma args_zgeinv_refuted : exists m n lda, forall c, reports (legal_zgeinv m n lda) c -> arg_code (chk_zgeinv m n lda) <> c.
Proof.
  exists 2, 1, 1. intros c H. rewrite (reports_fun _ c (-4) H); [discriminate|]. unfold legal_zgeinv. first_bad.
Qed.
Lemma args_zgelqf : forall m n lda, reports (legal_zgelqf m n lda) (arg_code (chk_zgelqf m n lda)).
Proof. intros. unfold legal_zgelqf, chk_zgelqf. args_tac. Qed.
Lemma args_zgeqrf : forall m n lda, reports (legal_zgeqrf m n lda) (arg_code (chk_zgeqrf m n lda)).
Proof. intros. unfold legal_zgeqrf, chk_zgeqrf. args_tac. Qed.
Lemma args_zgetrf : forall m n lda, reports (legal_zgetrf m n lda) (arg_code (chk_zgetrf m n lda)).
Proof. intros. unfold legal_zgetrf, chk_zgetrf. args_tac. Qed.
Lemma args_zgelqs : forall m n nrhs lda ldb, reports (legal_zgelqs m n nrhs lda ldb) (arg_code (chk_zgelqs m n nrhs lda ldb)).
Proof. intros. unfold legal_zgelqs, chk_zgelqs. args_tac. Qed.
Lemma args_zgels_refuted : exists trans m n nrhs lda ldb, forall c, reports (legal_zgels trans m n nrhs lda ldb) c -> arg_code (chk_zgels trans m n nrhs lda ldb) <> c.
Proof.
  exists 0, 1, 1, 1, 1, 1. intros c H. rewrite (reports_fun _ c (-1) H); [discriminate|]. unfold legal_zgels. first_bad.
Qed.
Lemma args_zgels_rejects : forall trans m n nrhs lda ldb, arg_code (chk_zgels trans m n nrhs lda ldb) = 0 <-> ((In trans [111;113]) /\ (0 <= m) /\ (0 <= n) /\ (0 <= nrhs) /\ (Z.max 1 m <= lda) /\ (Z.max 1 (Z.max m n) <= ldb)).
Proof. intros. unfold chk_zgels. rejects_tac. Qed.
Lemma args_zgemm : forall transa transb m n k lda ldb ldc, reports (legal_zgemm transa transb m n k lda ldb ldc) (arg_code (chk_zgemm transa transb m n k lda ldb ldc)).
Proof. intros. unfold legal_zgemm, chk_zgemm. args_tac. Qed.
Lemma args_zgeqrs : forall m n nrhs lda ldb, reports (legal_zgeqrs m n nrhs lda ldb) (arg_code (chk_zgeqrs m n nrhs lda ldb)).
Proof. intros. unfold legal_zgeqrs, chk_zgeqrs. args_tac. Qed.
Lemma args_zgesdd_refuted : exists jobu jobvt m n lda ldu ldvt, forall c, reports (legal_zgesdd jobu jobvt m n lda ldu ldvt) c -> arg_code (chk_zgesdd jobu jobvt m n lda ldu ldvt) <> c.
Proof.
  exists 301, 301, 1, 1, 1, 0, 1. intros c H. rewrite (reports_fun _ c (-10) H); [discriminate|]. unfold legal_zgesdd. first_bad.
Qed.
Lemma args_zgesdd_rejects : forall jobu jobvt m n lda ldu ldvt, arg_code (chk_zgesdd jobu jobvt m n lda ldu ldvt) = 0 <-> ((In jobu [301;305;306]) /\ (In jobvt [301;305;306] /\ jobvt = jobu) /\ (0 <= m) /\ (0 <= n) /\ (Z.max 1 m <= lda) /\ (1 <= ldu /\ (jobu <> 301 -> m <= ldu)) /\ (1 <= ldvt /\ (jobvt = 305 -> n <= ldvt) /\ (jobvt = 306 -> Z.min m n <= ldvt))).
Proof. intros. unfold chk_zgesdd. rejects_tac. Qed.
Lemma args_zgesv : forall n nrhs lda ldb, reports (legal_zgesv n nrhs lda ldb) (arg_code (chk_zgesv n nrhs lda ldb)).
Proof. intros. unfold legal_zgesv, chk_zgesv. args_tac. Qed.
Lemma args_zgeswp : forall colrow m n lda, reports (legal_zgeswp colrow m n lda) (arg_code (chk_zgeswp colrow m n lda)).
Proof. intros. unfold legal_zgeswp, chk_zgeswp. args_tac. Qed.
Lemma args_zgetri : forall n lda, reports (legal_zgetri n lda) (arg_code (chk_zgetri n lda)).
Proof. intros. unfold legal_zgetri, chk_zgetri. args_tac. Qed.
Lemma args_zgetri_aux : forall n lda, reports (legal_zgetri_aux n lda) (arg_code (chk_zgetri_aux n lda)).
Proof. intros. unfold legal_zgetri_aux, chk_zgetri_aux. args_tac. Qed.
Lemma args_zgetrs_refuted : exists trans n nrhs lda ldb, forall c, reports (legal_zgetrs trans n nrhs lda ldb) c -> arg_code (chk_zgetrs trans n nrhs lda ldb) <> c.
Proof.
  exists 111, (-1), 1, 1, 1. intros c H. rewrite (reports_fun _ c (-2) H); [discriminate|]. unfold legal_zgetrs. first_bad.
Qed.
Lemma args_zgetrs_rejects : forall trans n nrhs lda ldb, arg_code (chk_zgetrs trans n nrhs lda ldb) = 0 <-> ((In trans [111;112;113]) /\ (0 <= n) /\ (0 <= nrhs) /\ (Z.max 1 n <= lda) /\ (Z.max 1 n <= ldb)).
Proof. intros. unfold chk_zgetrs. rejects_tac. Qed.
Lemma args_zhemm : forall side uplo m n lda ldb ldc, reports (legal_zhemm side uplo m n lda ldb ldc) (arg_code (chk_zhemm side uplo m n lda ldb ldc)).
Proof. intros. unfold legal_zhemm, chk_zhemm. args_tac. Qed.
Lemma args_zsymm : forall side uplo m n lda ldb ldc, reports (legal_zsymm side uplo m n lda ldb ldc) (arg_code (chk_zsymm side uplo m n lda ldb ldc)).
Proof. intros. unfold legal_zsymm, chk_zsymm. args_tac. Qed.
Lemma args_zher2k : forall uplo trans n k lda ldb ldc, reports (legal_zher2k uplo trans n k lda ldb ldc) (arg_code (chk_zher2k uplo trans n k lda ldb ldc)).
Proof. intros. unfold legal_zher2k, chk_zher2k. args_tac. Qed.
Lemma args_zsyr2k : forall uplo trans n k lda ldb ldc, reports (legal_zsyr2k uplo trans n k lda ldb ldc) (arg_code (chk_zsyr2k uplo trans n k lda ldb ldc)).
Proof. intros. unfold legal_zsyr2k, chk_zsyr2k. args_tac. Qed.
Lemma args_zherk : forall uplo trans n k lda ldc, reports (legal_zherk uplo trans n k lda ldc) (arg_code (chk_zherk uplo trans n k lda ldc)).
Proof. intros. unfold legal_zherk, chk_zherk. args_tac. Qed.
Lemma args_zsyrk : forall uplo trans n k lda ldc, reports (legal_zsyrk uplo trans n k lda ldc) (arg_code (chk_zsyrk uplo trans n k lda ldc)).
Proof. intros. unfold legal_zsyrk, chk_zsyrk. args_tac. Qed.
Lemma args_zhesv_refuted : exists uplo n nrhs lda ldb, forall c, reports (legal_zhesv uplo n nrhs lda ldb) c -> arg_code (chk_zhesv uplo n nrhs lda ldb) <> c.
Proof.
  exists 122, 1, (-1), 1, 1. intros c H. rewrite (reports_fun _ c (-3) H); [discriminate|]. unfold legal_zhesv. first_bad.
Qed.
Lemma args_zhesv_rejects : forall uplo n nrhs lda ldb, arg_code (chk_zhesv uplo n nrhs lda ldb) = 0 <-> ((In uplo [122]) /\ (0 <= n) /\ (0 <= nrhs) /\ (Z.max 1 n <= lda) /\ (Z.max 1 n <= ldb)).
Proof. intros. unfold chk_zhesv. rejects_tac. Qed.
Lemma args_zhetrs_refuted : exists uplo n nrhs lda ldb, forall c, reports (legal_zhetrs uplo n nrhs lda ldb) c -> arg_code (chk_zhetrs uplo n nrhs lda ldb) <> c.
Proof.
  exists 122, 1, (-1), 1, 1. intros c H. rewrite (reports_fun _ c (-3) H); [discriminate|]. unfold legal_zhetrs. first_bad.
Qed.
Lemma args_zhetrs_rejects : forall uplo n nrhs lda ldb, arg_code (chk_zhetrs uplo n nrhs lda ldb) = 0 <-> ((In uplo [122]) /\ (0 <= n) /\ (0 <= nrhs) /\ (Z.max 1 n <= lda) /\ (Z.max 1 n <= ldb)).
Proof. intros. unfold chk_zhetrs. rejects_tac. Qed.
Lemma args_zhetrf : forall uplo n lda, reports (legal_zhetrf uplo n lda) (arg_code (chk_zhetrf uplo n lda)).
Proof. intros. unfold legal_zhetrf, chk_zhetrf. args_tac. Qed.
Lemma args_zlacpy : forall uplo transa m n lda ldb, reports (legal_zlacpy uplo transa m n lda ldb) (arg_code (chk_zlacpy uplo transa m n lda ldb)).
Proof. intros. unfold legal_zlacpy, chk_zlacpy. 
  apply step_one_of. apply step_one_of. cbn [arg_code].
  destruct (m <? 0) eqn:E1; [apply reports_here; bools; lia|].
  destruct (n <? 0) eqn:E2.
  { apply reports_later; [bools; lia|]. apply reports_here. bools. lia. }
  destruct (negb (transa =? 111) && negb (m =? n)) eqn:E3; [apply reports_here; bools; intuition lia|].
  apply reports_later; [bools; intuition lia|]. apply reports_later; [bools; lia|].
  change (reports [(6, Z.max 1 m <= lda); (8, Z.max 1 (if transa =? 111 then m else n) <= ldb)]
    (arg_code [(lda <? Z.max 1 m, -6); (ldb <? Z.max 1 (if transa =? 111 then m else n), -8)])). args_tac. Qed.
Lemma args_zlag2c : forall m n lda ldas, reports (legal_zlag2c m n lda ldas) (arg_code (chk_zlag2c m n lda ldas)).
Proof. intros. unfold legal_zlag2c, chk_zlag2c. args_tac. Qed.
Lemma args_zlangb : forall norm m n kl ku ldab, reports (legal_zlangb norm m n kl ku ldab) (arg_code (chk_zlangb norm m n kl ku ldab)).
Proof. intros. unfold legal_zlangb, chk_zlangb. args_tac. Qed.
Lemma args_zlange : forall norm m n lda, reports (legal_zlange norm m n lda) (arg_code (chk_zlange norm m n lda)).
Proof. intros. unfold legal_zlange, chk_zlange. args_tac. Qed.
Lemma args_zlanhe : forall norm uplo n lda, reports (legal_zlanhe norm uplo n lda) (arg_code (chk_zlanhe norm uplo n lda)).
Proof. intros. unfold legal_zlanhe, chk_zlanhe. args_tac. Qed.
Lemma args_zlansy : forall norm uplo n lda, reports (legal_zlansy norm uplo n lda) (arg_code (chk_zlansy norm uplo n lda)).
Proof. intros. unfold legal_zlansy, chk_zlansy. args_tac. Qed.
Lemma args_zlantr : forall norm uplo diag m n lda, reports (legal_zlantr norm uplo diag m n lda) (arg_code (chk_zlantr norm uplo diag m n lda)).
Proof. intros. unfold legal_zlantr, chk_zlantr. args_tac. Qed.
Lemma args_zlascl : forall uplo cfrom cto m n lda, reports (legal_zlascl uplo cfrom cto m n lda) (arg_code (chk_zlascl uplo cfrom cto m n lda)).
Proof. intros. unfold legal_zlascl, chk_zlascl. args_tac. Qed.
Lemma args_zlaset_refuted : exists uplo m n lda, forall c, reports (legal_zlaset uplo m n lda) c -> arg_code (chk_zlaset uplo m n lda) <> c.
Proof.
  exists 123, 1, 1, 0. intros c H. rewrite (reports_fun _ c (-7) H); [discriminate|]. unfold legal_zlaset. first_bad.
Qed.
Lemma args_zlaset_rejects : forall uplo m n lda, arg_code (chk_zlaset uplo m n lda) = 0 <-> ((In uplo [123;121;122]) /\ (0 <= m) /\ (0 <= n) /\ (Z.max 1 m <= lda)).
Proof. intros. unfold chk_zlaset. rejects_tac. Qed.
Lemma args_zlauum : forall uplo n lda, reports (legal_zlauum uplo n lda) (arg_code (chk_zlauum uplo n lda)).
Proof. intros. unfold legal_zlauum, chk_zlauum. args_tac. Qed.
Lemma args_zpoinv : forall uplo n lda, reports (legal_zpoinv uplo n lda) (arg_code (chk_zpoinv uplo n lda)).
Proof. intros. unfold legal_zpoinv, chk_zpoinv. args_tac. Qed.
Lemma args_zpotrf : forall uplo n lda, reports (legal_zpotrf uplo n lda) (arg_code (chk_zpotrf uplo n lda)).
Proof. intros. unfold legal_zpotrf, chk_zpotrf. args_tac. Qed.
Lemma args_zpotri : forall uplo n lda, reports (legal_zpotri uplo n lda) (arg_code (chk_zpotri uplo n lda)).
Proof. intros. unfold legal_zpotri, chk_zpotri. args_tac. Qed.
Lemma args_zpbsv : forall uplo n kd nrhs ldab ldb, reports (legal_zpbsv uplo n kd nrhs ldab ldb) (arg_code (chk_zpbsv uplo n kd nrhs ldab ldb)).
Proof. intros. unfold legal_zpbsv, chk_zpbsv. args_tac. Qed.
Lemma args_zpbtrf : forall uplo n kd ldab, reports (legal_zpbtrf uplo n kd ldab) (arg_code (chk_zpbtrf uplo n kd ldab)).
Proof. intros. unfold legal_zpbtrf, chk_zpbtrf. args_tac. Qed.
Lemma args_zpbtrs_refuted : exists uplo n kd nrhs ldab ldb, forall c, reports (legal_zpbtrs uplo n kd nrhs ldab ldb) c -> arg_code (chk_zpbtrs uplo n kd nrhs ldab ldb) <> c.
Proof.
  exists 121, 1, (-1), 1, 1, 1. intros c H. rewrite (reports_fun _ c (-3) H); [discriminate|]. unfold legal_zpbtrs. first_bad.
Qed.
Lemma args_zpbtrs_rejects : forall uplo n kd nrhs ldab ldb, arg_code (chk_zpbtrs uplo n kd nrhs ldab ldb) = 0 <-> ((In uplo [121;122]) /\ (0 <= n) /\ (0 <= kd) /\ (0 <= nrhs) /\ (Z.max 1 (1 + kd) <= ldab) /\ (Z.max 1 n <= ldb)).
Proof. intros. unfold chk_zpbtrs. rejects_tac. Qed.
Lemma args_zposv : forall uplo n nrhs lda ldb, reports (legal_zposv uplo n nrhs lda ldb) (arg_code (chk_zposv uplo n nrhs lda ldb)).
Proof. intros. unfold legal_zposv, chk_zposv. args_tac. Qed.
Lemma args_zpotrs : forall uplo n nrhs lda ldb, reports (legal_zpotrs uplo n nrhs lda ldb) (arg_code (chk_zpotrs uplo n nrhs lda ldb)).
Proof. intros. unfold legal_zpotrs, chk_zpotrs. args_tac. Qed.
Lemma args_ztradd : forall uplo transa m n pA lda pB ldb, reports (legal_ztradd uplo transa m n pA lda pB ldb) (arg_code (chk_ztradd uplo transa m n pA lda pB ldb)).
Proof. intros. unfold legal_ztradd, chk_ztradd. args_tac. Qed.
Lemma args_ztrmm_refuted : exists side uplo transa diag m n lda ldb, forall c, reports (legal_ztrmm side uplo transa diag m n lda ldb) c -> arg_code (chk_ztrmm side uplo transa diag m n lda ldb) <> c.
Proof.
  exists 141, 121, 111, 131, 1, 1, 0, 1. intros c H. rewrite (reports_fun _ c (-9) H); [discriminate|]. unfold legal_ztrmm. first_bad.
Qed.
Lemma args_ztrmm_rejects : forall side uplo transa diag m n lda ldb, arg_code (chk_ztrmm side uplo transa diag m n lda ldb) = 0 <-> ((In side [141;142]) /\ (In uplo [121;122]) /\ (In transa [111;112;113]) /\ (In diag [132;131]) /\ (0 <= m) /\ (0 <= n) /\ (Z.max 1 (if side =? 141 then m else n) <= lda) /\ (Z.max 1 m <= ldb)).
Proof. intros. unfold chk_ztrmm. rejects_tac. Qed.
Lemma args_ztrsm_refuted : exists side uplo transa diag m n lda ldb, forall c, reports (legal_ztrsm side uplo transa diag m n lda ldb) c -> arg_code (chk_ztrsm side uplo transa diag m n lda ldb) <> c.
Proof.
  exists 141, 121, 111, 131, 1, 1, 0, 1. intros c H. rewrite (reports_fun _ c (-9) H); [discriminate|]. unfold legal_ztrsm. first_bad.
Qed.
Lemma args_ztrsm_rejects : forall side uplo transa diag m n lda ldb, arg_code (chk_ztrsm side uplo transa diag m n lda ldb) = 0 <-> ((In side [141;142]) /\ (In uplo [121;122]) /\ (In transa [111;112;113]) /\ (In diag [132;131]) /\ (0 <= m) /\ (0 <= n) /\ (Z.max 1 (if side =? 141 then m else n) <= lda) /\ (Z.max 1 m <= ldb)).
Proof. intros. unfold chk_ztrsm. rejects_tac. Qed.
Lemma args_ztrtri : forall uplo diag n lda, reports (legal_ztrtri uplo diag n lda) (arg_code (chk_ztrtri uplo diag n lda)).
Proof. intros. unfold legal_ztrtri, chk_ztrtri. args_tac. Qed.
Lemma args_zunglq : forall m n k lda ldq, reports (legal_zunglq m n k lda ldq) (arg_code (chk_zunglq m n k lda ldq)).
Proof. intros. unfold legal_zunglq, chk_zunglq. args_tac. Qed.
Lemma args_zungqr : forall m n k lda ldq, reports (legal_zungqr m n k lda ldq) (arg_code (chk_zungqr m n k lda ldq)).
Proof. intros. unfold legal_zungqr, chk_zungqr. args_tac. Qed.
Lemma args_zunmlq : forall side trans m n k lda ldc, reports (legal_zunmlq side trans m n k lda ldc) (arg_code (chk_zunmlq side trans m n k lda ldc)).
Proof. intros. unfold legal_zunmlq, chk_zunmlq. args_tac. Qed.
Lemma args_zunmqr : forall side trans m n k lda ldc, reports (legal_zunmqr side trans m n k lda ldc) (arg_code (chk_zunmqr side trans m n k lda ldc)).
Proof. intros. unfold legal_zunmqr, chk_zunmqr. args_tac. Qed.
