(* The tasks of the norms stay inside the workspace that the drivers allocate. *)
From Coq Require Import ZArith List Bool Lia.
From Verif Require Import Base NumModel FieldModel TaskModel TaskSpec DescModel DescSpec
  DescProofs DescProofs4 DescDriverModel MatModel MatSpec MatProofs RegionProofs LayoutModel LayoutProofs LayoutProofs2 DriverModel OpProofs OperandProofs
  GemmProofs SwpModel NormModel NormTriModel NormSpec NormPhaseProofs.
Import ListNotations.
Open Scope Z_scope.

Section Work.
  Context {N : normed}.
  Variables (nb bA : Z) (A : desc) (bW : Z) (value : loc).
  Hypothesis HA : dn nb A.
  Hypothesis Hb : 0 < nb.
  Hypothesis H3 : bA <> bW.
  Hypothesis H4 : fst value <> bW.

  Lemma reg_other : forall p ld m n P l, fst p <> bW -> fst l = bW -> ~ reg p ld m n P l.
  Proof. intros p ld m n P l Hp Hl (i & j & _ & _ & _ & ->). apply Hp. exact Hl. Qed.
  Lemma seg_other : forall p len l, fst p <> bW -> fst l = bW -> ~ seg p len l.
  Proof. intros p len l Hp Hl (r & _ & ->). apply Hp. exact Hl. Qed.
  Lemma seg_work : forall o len size l, 0 <= o -> o + len <= size -> seg (bW, o) len l -> 0 <= snd l < size.
  Proof. intros o len size l H K (r & Hr & ->). cbn [fst snd]. lia. Qed.
  Lemma reg_work : forall o ld m n P size l, 0 <= o -> o + ld * n <= size -> m <= ld ->
    reg (bW, o) ld m n P l -> 0 <= snd l < size.
  Proof.
    intros o ld m n P size l Ho Hs Hm (i & j & Hi & Hj & _ & ->). unfold at_. cbn [fst snd]. nia.
  Qed.

  Lemma copies_within : forall pA lda size k, fst pA <> bW -> In k (pzge2desc pA lda bA A) -> within bW size (k : ktask N).
  Proof.
    intros pA lda size k H2 Hk l Hl HX. exfalso. unfold pzge2desc in Hk. apply in_flat_map in Hk. destruct Hk as (m & _ & Hk).
    apply in_flat_map in Hk. destruct Hk as (n & _ & [<-|[]]). unfold copy_in, omp_zlacpy in HX. cbn [k_reads k_writes] in HX.
    destruct HX as [HX|HX]; [apply reg_other in HX|apply reg_other in HX]; auto.
  Qed.

  (* a task that reads a tile and writes a segment of the workspace *)
  Lemma tile_within : forall size (k : ktask N) p ld m n o len,
    fst p = bA -> (forall l, k_reads k l -> reg p ld m n everywhere l) ->
    (forall l, k_writes k l -> seg (bW, o) len l) -> 0 <= o -> o + len <= size -> within bW size k.
  Proof.
    intros size k p ld m n o len Hp HR HW Ho Hs l Hl [HX|HX].
    - apply HR in HX. exfalso. apply (reg_other _ _ _ _ _ _) in HX; auto. congruence.
    - apply HW in HX. eapply seg_work; eauto.
  Qed.
  Lemma tile_within2 : forall size (k : ktask N) p ld m n o o' len,
    fst p = bA -> (forall l, k_reads k l -> reg p ld m n everywhere l) ->
    (forall l, k_writes k l -> seg (bW, o) len l \/ seg (bW, o') len l) ->
    0 <= o -> o + len <= size -> 0 <= o' -> o' + len <= size -> within bW size k.
  Proof.
    intros size k p ld m n o o' len Hp HR HW Ho Hs Ho' Hs' l Hl [HX|HX].
    - apply HR in HX. exfalso. apply (reg_other _ _ _ _ _ _) in HX; auto. congruence.
    - apply HW in HX. destruct HX as [HX|HX]; [apply (seg_work o len)|apply (seg_work o' len)]; assumption.
  Qed.


  (* the last task: reads the workspace, writes the rest of it and the value *)
  Lemma final_within : forall size (k : ktask N) ld m n o len,
    (forall l, k_reads k l -> reg (bW, 0) ld m n everywhere l) ->
    (forall l, k_writes k l -> seg (bW, o) len l \/ seg value 1 l) ->
    m <= ld -> ld * n <= size -> 0 <= o -> o + len <= size -> within bW size k.
  Proof.
    intros size k ld m n o len HR HW Hm Hs Ho Hs' l Hl [HX|HX].
    - apply HR in HX. revert HX. apply reg_work; lia.
    - apply HW in HX. destruct HX as [HX|HX]; [apply (seg_work o len); assumption|].
      exfalso. apply (seg_other value 1 l H4 Hl HX).
  Qed.
  Lemma final_within2 : forall size (k : ktask N) n o,
    (forall l, k_reads k l -> seg (bW, 0) n l \/ seg (bW, o) n l) ->
    (forall l, k_writes k l -> seg value 1 l) ->
    n <= size -> 0 <= o -> o + n <= size -> within bW size k.
  Proof.
    intros size k n o HR HW Hs Ho Hs' l Hl [HX|HX].
    - apply HR in HX. destruct HX as [HX|HX]; [apply (seg_work 0 n)|apply (seg_work o n)]; auto; lia.
    - apply HW in HX. exfalso. apply (seg_other value 1 l H4 Hl HX).
  Qed.

  Lemma sizes : in_tiles A 0 0 -> 0 < d_mt A /\ 0 < d_nt A /\ 0 < d_m A /\ 0 < d_n A.
  Proof using HA.
    clear H3 H4. intros H. destruct (views nb A HA 0 0 H) as (? & ? & ? & ? & ? & ?). destruct H. lia.
  Qed.
  Lemma d_nb_eq : d_nb A = nb.
  Proof. exact (sq_nb nb A _ HA). Qed.
  Lemma d_mb_eq : d_mb A = nb.
  Proof. exact (sq_mb nb A _ HA). Qed.

  Lemma in_tiles_list : forall (t : Z -> Z -> ktask N) k,
    In k (flat_map (fun m => map (fun n => t m n) (zrange 0 (d_nt A))) (zrange 0 (d_mt A))) ->
    exists m n, in_tiles A m n /\ k = t m n.
  Proof.
    intros t k Hk. apply in_flat_map in Hk. destruct Hk as (m & Hm & Hk). apply in_map_iff in Hk.
    destruct Hk as (n & <- & Hn). apply in_zrange in Hm, Hn. exists m, n. repeat split; lia.
  Qed.
  Lemma in_tri_list : forall uplo (off : Z -> Z -> list (ktask N)) diag k,
    In k (tri_tiles uplo A off diag) ->
    exists m n, in_tiles A m n /\ (In k (off m n) \/ m = n /\ k = diag m).
  Proof.
    intros uplo off diag k Hk. unfold tri_tiles in Hk. apply in_flat_map in Hk. destruct Hk as (m & Hm & Hk).
    apply in_zrange in Hm. apply in_app_or in Hk. destruct Hk as [Hk|Hk].
    - apply in_flat_map in Hk. destruct Hk as (n & Hn & Hk). exists m, n. split; [|left; exact Hk].
      destruct (uplo =? PlasmaLower); apply in_zrange in Hn; unfold in_tiles; lia.
    - destruct (Z.ltb_spec m (d_nt A)); [|destruct Hk]. destruct Hk as [<-|[]]. exists m, m. split; [unfold in_tiles; lia|auto].
  Qed.

  (* where a tile's segment of the workspace lies *)
  Lemma off_row : forall m n, in_tiles A m n -> 0 <= d_mt A * n + m /\ d_mt A * n + m + 1 <= d_mt A * d_nt A.
  Proof using. clear. intros m n [Hm Hn]. nia. Qed.
  Lemma off_one : forall m n, in_tiles A m n ->
    0 <= d_n A * m + n * d_nb A /\ d_n A * m + n * d_nb A + tile_nview A n <= d_mt A * d_n A.
  Proof using HA Hb.
    clear H3 H4. intros m n H. destruct (views nb A HA m n H) as (? & ? & ? & ? & ? & ?). destruct H. rewrite d_nb_eq. nia.
  Qed.
  Lemma off_inf : forall m n, in_tiles A m n ->
    0 <= d_m A * n + m * d_mb A /\ d_m A * n + m * d_mb A + tile_mview A m <= d_nt A * d_m A.
  Proof using HA Hb.
    clear H3 H4. intros m n H. destruct (views nb A HA m n H) as (? & ? & ? & ? & ? & ?). destruct H. rewrite d_mb_eq. nia.
  Qed.

  Lemma zlange_within : forall lassq nsqrt norm (k : ktask N) ks, in_tiles A 0 0 ->
    In ks (pzlange lassq nsqrt norm bA A (bW, 0) value) -> In k ks -> within bW (zlange_work norm A) k.
  Proof.
    intros lassq nsqrt norm k ks H0 Hks Hk. destruct (sizes H0) as (S1 & S2 & S3 & S4).
    unfold pzlange in Hks. unfold zlange_work.
    destruct (norm =? PlasmaMaxNorm); [|destruct (norm =? PlasmaOneNorm); [|destruct (norm =? PlasmaInfNorm);
      [|destruct (norm =? PlasmaFrobeniusNorm)]]]; [| | | |destruct Hks]; destruct Hks as [<-|[<-|[]]].
    - apply in_tiles_list in Hk. destruct Hk as (m & n & HI & ->). destruct (off_row m n HI).
      eapply (tile_within _ _ _ _ _ _ (d_mt A * n + m) 1); cbn [omp_zlange_max k_reads k_writes]; [| eauto | auto | |]; try lia. reflexivity.
    - destruct Hk as [<-|[]]. eapply (final_within _ _ _ _ _ 0 0); cbn [omp_zlange_max k_reads k_writes]; [eauto|auto|lia..].
    - apply in_tiles_list in Hk. destruct Hk as (m & n & HI & ->). destruct (off_one m n HI).
      eapply (tile_within _ _ _ _ _ _ (d_n A * m + n * d_nb A) (tile_nview A n)); cbn [omp_zlange_aux_one k_reads k_writes]; [| eauto | auto | |]; try lia. reflexivity.
    - destruct Hk as [<-|[]]. eapply (final_within _ _ _ _ _ (d_mt A * d_n A) (d_n A)); cbn [omp_dlange_inf k_reads k_writes]; [eauto|auto|nia..].
    - apply in_tiles_list in Hk. destruct Hk as (m & n & HI & ->). destruct (off_inf m n HI).
      eapply (tile_within _ _ _ _ _ _ (d_m A * n + m * d_mb A) (tile_mview A m)); cbn [omp_zlange_aux_inf k_reads k_writes]; [| eauto | auto | |]; try lia. reflexivity.
    - destruct Hk as [<-|[]]. eapply (final_within _ _ _ _ _ (d_nt A * d_m A) (d_m A)); cbn [omp_dlange_inf k_reads k_writes]; [eauto|auto|nia..].
    - apply in_tiles_list in Hk. destruct Hk as (m & n & HI & ->). destruct (off_row m n HI).
      eapply (tile_within2 _ _ _ _ _ _ (d_mt A * n + m) (d_mt A * d_nt A + (d_mt A * n + m)) 1); cbn [omp_zgessq k_reads k_writes]; [| eauto | auto | | | |]; try nia. reflexivity.
    - destruct Hk as [<-|[]]. apply (final_within2 _ _ (d_mt A * d_nt A) (d_mt A * d_nt A)); cbn [omp_dgessq_aux k_reads k_writes]; [auto|auto|nia..].
  Qed.

  Ltac t1 o len := eapply (tile_within _ _ _ _ _ _ o len);
    cbn [omp_zlange_max omp_zlansy_max omp_zlange_aux_one omp_zlange_aux_inf omp_zlansy_aux omp_zlantr_max omp_zlantr_one
         omp_zlantr_inf omp_amax_col omp_amax_row k_reads k_writes]; [| eauto | auto | nia | nia]; reflexivity.
  Ltac t2 o o' := eapply (tile_within2 _ _ _ _ _ _ o o' 1);
    cbn [omp_zgessq omp_zsyssq omp_ztrssq k_reads k_writes]; [| eauto | auto | nia..]; reflexivity.

  Lemma pdzamax_within : forall colrow (k : ktask N) ks, in_tiles A 0 0 ->
    In ks (pdzamax colrow bA A (bW, 0) value) -> In k ks -> fst value <> bW ->
    within bW (dzamax_work colrow A) k.
  Proof.
    intros colrow k ks H0 Hks Hk HV. destruct (sizes H0) as (S1 & S2 & S3 & S4).
    unfold pdzamax in Hks. unfold dzamax_work. destruct (colrow =? PlasmaColumnwise); destruct Hks as [<-|[<-|[]]].
    - apply in_tiles_list in Hk. destruct Hk as (m & n & HI & ->). destruct (off_one m n HI). t1 (d_n A * m + n * d_nb A) (tile_nview A n).
    - destruct Hk as [<-|[]]. intros l Hl [HX|HX].
      + revert HX. apply reg_work; nia.
      + exfalso. apply (seg_other _ _ _ HV Hl HX).
    - apply in_tiles_list in Hk. destruct Hk as (m & n & HI & ->). destruct (off_inf m n HI). t1 (d_m A * n + m * d_mb A) (tile_mview A m).
    - destruct Hk as [<-|[]]. intros l Hl [HX|HX].
      + revert HX. apply reg_work; nia.
      + exfalso. apply (seg_other _ _ _ HV Hl HX).
  Qed.

  Lemma pzlansy_within : forall lassq nsqrt dg norm uplo (k : ktask N) ks, in_tiles A 0 0 -> d_m A = d_n A -> d_mt A = d_nt A ->
    In ks (pzlansy lassq nsqrt dg norm uplo bA A (bW, 0) value) -> In k ks -> within bW (zlansy_work norm A) k.
  Proof.
    intros lassq nsqrt dg norm uplo k ks H0 EM ET Hks Hk. destruct (sizes H0) as (S1 & S2 & S3 & S4).
    unfold pzlansy in Hks. unfold zlansy_work.
    destruct (norm =? PlasmaMaxNorm); [|destruct ((norm =? PlasmaOneNorm) || (norm =? PlasmaInfNorm));
      [|destruct (norm =? PlasmaFrobeniusNorm)]]; [| | |destruct Hks]; destruct Hks as [<-|[<-|[]]].
    - apply in_tri_list in Hk. destruct Hk as (m & n & HI & [[<-|[]]|[-> ->]]);
        [destruct (off_row m n HI); t1 (d_mt A * n + m) 1|destruct (off_row n n HI); t1 (d_mt A * n + n) 1].
    - destruct Hk as [<-|[]]. eapply (final_within _ _ _ _ _ 0 0); cbn [omp_zlansy_max k_reads k_writes]; [eauto|auto|lia..].
    - apply in_tri_list in Hk. destruct Hk as (m & n & HI & [[<-|[<-|[]]]|[-> ->]]).
      + destruct (off_one m n HI). t1 (d_n A * m + n * d_nb A) (tile_nview A n).
      + destruct (off_inf m n HI) as [O1 O2]. rewrite d_mb_eq, EM in *. 
        eapply (tile_within _ _ _ _ _ _ (d_n A * n + m * d_nb A) (tile_mview A m)); cbn [omp_zlange_aux_inf k_reads k_writes];
          [|eauto|auto|rewrite d_nb_eq; nia|rewrite d_nb_eq; nia]; reflexivity.
      + destruct (off_inf n n HI) as [O1 O2]. rewrite d_mb_eq, EM in *. 
        eapply (tile_within _ _ _ _ _ _ (d_n A * n + n * d_nb A) (tile_mview A n)); cbn [omp_zlansy_aux k_reads k_writes];
          [|eauto|auto|rewrite d_nb_eq; nia|rewrite d_nb_eq; nia]; reflexivity.
    - destruct Hk as [<-|[]]. eapply (final_within _ _ _ _ _ (d_mt A * d_n A) (d_n A)); cbn [omp_dlange_inf k_reads k_writes]; [eauto|auto|nia..].
    - apply in_tri_list in Hk. destruct Hk as (m & n & HI & [Hk|[-> ->]]).
      + assert (HI' : in_tiles A n m) by (destruct HI; unfold in_tiles; lia). destruct (off_row m n HI). destruct (off_row n m HI').
        destruct (uplo =? PlasmaLower); destruct Hk as [<-|[]];
          [t2 (d_mt A * n + m) (d_mt A * d_nt A + (d_mt A * n + m))|t2 (d_mt A * m + n) (d_mt A * d_nt A + (d_mt A * m + n))].
      + destruct (off_row n n HI). t2 (d_mt A * n + n) (d_mt A * d_nt A + (d_mt A * n + n)).
    - destruct Hk as [<-|[]]. apply (final_within2 _ _ (d_mt A * d_nt A) (d_mt A * d_nt A)); cbn [omp_dsyssq_aux k_reads k_writes]; [auto|auto|nia..].
  Qed.

  Lemma calloc_within : forall size, within bW size (@calloc_work N bW size).
  Proof. intros size l Hl [[]|HX]. revert HX. apply seg_work; lia. Qed.

  Lemma pzlantr_within : forall lassq nsqrt norm uplo diag (k : ktask N) ks, in_tiles A 0 0 ->
    In ks (pzlantr lassq nsqrt norm uplo diag bA A (bW, 0) value) -> In k ks -> within bW (zlantr_work norm A) k.
  Proof.
    intros lassq nsqrt norm uplo diag k ks H0 Hks Hk. destruct (sizes H0) as (S1 & S2 & S3 & S4).
    unfold pzlantr in Hks. unfold zlantr_work.
    destruct (norm =? PlasmaMaxNorm); [|destruct (norm =? PlasmaOneNorm); [|destruct (norm =? PlasmaInfNorm);
      [|destruct (norm =? PlasmaFrobeniusNorm)]]]; [| | | |destruct Hks]; destruct Hks as [<-|[<-|[]]].
    - apply in_tri_list in Hk. destruct Hk as (m & n & HI & [[<-|[]]|[-> ->]]);
        [destruct (off_row m n HI); t1 (d_mt A * n + m) 1|destruct (off_row n n HI); t1 (d_mt A * n + n) 1].
    - destruct Hk as [<-|[]]. eapply (final_within _ _ _ _ _ 0 0); cbn [omp_zlantr_max k_reads k_writes]; [eauto|auto|lia..].
    - apply in_tri_list in Hk. destruct Hk as (m & n & HI & [[<-|[]]|[-> ->]]);
        [destruct (off_one m n HI); t1 (d_n A * m + n * d_nb A) (tile_nview A n)
        |destruct (off_one n n HI); t1 (d_n A * n + n * d_nb A) (tile_nview A n)].
    - destruct Hk as [<-|[]]. eapply (final_within _ _ _ _ _ (d_mt A * d_n A) (d_n A)); cbn [omp_dlange_inf k_reads k_writes]; [eauto|auto|nia..].
    - apply in_tri_list in Hk. destruct Hk as (m & n & HI & [[<-|[]]|[-> ->]]).
      + destruct (off_inf m n HI); t1 (d_m A * n + m * d_mb A) (tile_mview A m).
      + destruct (off_inf n n HI). assert (EB : d_nb A = d_mb A) by (rewrite d_nb_eq, d_mb_eq; reflexivity). rewrite EB.
        t1 (d_m A * n + n * d_mb A) (tile_mview A n).
    - destruct Hk as [<-|[]]. eapply (final_within _ _ _ _ _ (d_nt A * d_m A) (d_m A)); cbn [omp_dlange_inf k_reads k_writes]; [eauto|auto|nia..].
    - apply in_tri_list in Hk. destruct Hk as (m & n & HI & [[<-|[]]|[-> ->]]);
        [destruct (off_row m n HI); t2 (d_mt A * n + m) (d_mt A * d_nt A + (d_mt A * n + m))
        |destruct (off_row n n HI); t2 (d_mt A * n + n) (d_mt A * d_nt A + (d_mt A * n + n))].
    - destruct Hk as [<-|[]]. apply (final_within2 _ _ (d_mt A * d_nt A) (d_mt A * d_nt A)); cbn [omp_dgessq_aux k_reads k_writes]; [auto|auto|nia..].
  Qed.
End Work.

Section Drivers.
  Context {N : normed}.

  Lemma with_vdesc_within : forall b size (r : create_result) (f : desc -> valued N) A sz, r = CrOk A sz ->
    all_within b size (f A) -> all_within b size (with_vdesc r f).
  Proof. intros b size r f A sz -> H. exact H. Qed.

  Lemma norm_phases_within : forall pA lda bA bW size A (ph : list (list (ktask N))) value,
    fst pA <> bW -> bA <> bW ->
    (forall ks, In ks ph -> forall k, In k ks -> within bW size k) ->
    all_within bW size (VRuns (norm_phases pA lda bA A ph) value).
  Proof.
    intros pA lda bA bW size A ph value B1 B2 H ks Hks k Hk. unfold norm_phases in Hks. destruct ph as [|f rest].
    - destruct Hks as [<-|[]]. eapply copies_within; eauto.
    - destruct Hks as [<-|Hks].
      + apply in_app_or in Hk. destruct Hk as [Hk|Hk]; [eapply copies_within; eauto|].
        apply (H f); [left; reflexivity|assumption].
      + apply (H ks); [right; assumption|assumption].
  Qed.

  Lemma first_tile : forall nb m n A sz, 0 < nb -> 0 < m -> 0 < n -> ge_create nb m n = CrOk A sz ->
    dn nb A /\ d_m A = m /\ d_n A = n /\ in_tiles A 0 0.
  Proof.
    intros nb m n A sz Hb Hm Hn E. destruct (ge_create_dn nb m n A sz E) as (HA & Em & En & _).
    split; [exact HA|]. split; [exact Em|]. split; [exact En|]. apply (dn_in nb A 0 0 HA). rewrite Em, En. lia.
  Qed.

  Lemma zlange_workspace : forall lassq nsqrt nb norm m n pA lda bA bW (value : loc) A sz,
    0 < nb -> fst pA <> bW -> bA <> bW -> fst value <> bW -> ge_create nb m n = CrOk A sz ->
    all_within bW (zlange_work norm A) (@zlange N lassq nsqrt nb norm m n pA lda bA bW value).
  Proof.
    intros lassq nsqrt nb norm m n pA lda bA bW value A sz Hb B1 B2 B3 E. unfold zlange.
    destruct (negb (norm_ok norm)); [exact I|]. destruct (Z.ltb_spec m 0); [exact I|]. destruct (Z.ltb_spec n 0); [exact I|].
    destruct (lda <? Z.max 1 m); [exact I|]. destruct (Z.eqb_spec (Z.min n m) 0); [exact I|].
    destruct (first_tile nb m n A sz) as (HA & Em & En & HT); [lia..|exact E|].
    apply (with_vdesc_within _ _ _ _ A sz E). apply norm_phases_within; [assumption..|].
    intros ks Hks k Hk. apply zlange_within with (nb := nb) (bA := bA) (value := value) (lassq := lassq) (nsqrt := nsqrt) (ks := ks); assumption.
  Qed.

  Lemma dzamax_workspace : forall nb colrow m n pA lda bA bW (values : loc) A sz,
    0 < nb -> fst pA <> bW -> bA <> bW -> fst values <> bW -> ge_create nb m n = CrOk A sz ->
    all_within bW (dzamax_work colrow A) (@dzamax N nb colrow m n pA lda bA bW values).
  Proof.
    intros nb colrow m n pA lda bA bW values A sz Hb B1 B2 B3 E. unfold dzamax.
    destruct (negb _); [exact I|]. destruct (Z.ltb_spec m 0); [exact I|]. destruct (Z.ltb_spec n 0); [exact I|].
    destruct (lda <? Z.max 1 m); [exact I|]. destruct (Z.eqb_spec (Z.min n m) 0); [exact I|].
    destruct (first_tile nb m n A sz) as (HA & Em & En & HT); [lia..|exact E|].
    apply (with_vdesc_within _ _ _ _ A sz E). apply norm_phases_within; [assumption..|].
    intros ks Hks k Hk. apply pdzamax_within with (nb := nb) (bA := bA) (value := values) (ks := ks); assumption.
  Qed.

  Lemma zlansy_workspace : forall lassq nsqrt dg nb norm uplo n pA lda bA bW (value : loc) A sz,
    0 < nb -> fst pA <> bW -> bA <> bW -> fst value <> bW -> ge_create nb n n = CrOk A sz ->
    all_within bW (zlansy_work norm A) (@zlansy N lassq nsqrt dg nb norm uplo n pA lda bA bW value).
  Proof.
    intros lassq nsqrt dg nb norm uplo n pA lda bA bW value A sz Hb B1 B2 B3 E. unfold zlansy.
    destruct (negb (norm_ok norm)); [exact I|]. destruct (negb _); [exact I|]. destruct (Z.ltb_spec n 0); [exact I|].
    destruct (lda <? Z.max 1 n); [exact I|]. destruct (Z.eqb_spec n 0); [exact I|].
    destruct (first_tile nb n n A sz) as (HA & Em & En & HT); [lia..|exact E|].
    apply (with_vdesc_within _ _ _ _ A sz E). apply norm_phases_within; [assumption..|].
    intros ks Hks k Hk. assert (d_mt A = d_nt A) by (rewrite (dn_mt nb A HA), (dn_nt nb A HA) by lia; congruence).
    apply pzlansy_within with (nb := nb) (bA := bA) (value := value) (lassq := lassq) (nsqrt := nsqrt) (dg := dg) (uplo := uplo) (ks := ks); try assumption; lia.
  Qed.

  Lemma zlantr_workspace : forall lassq nsqrt nb norm uplo diag m n pA lda bA bW (value : loc) A sz,
    0 < nb -> fst pA <> bW -> bA <> bW -> fst value <> bW -> ge_create nb m n = CrOk A sz ->
    all_within bW (zlantr_work norm A) (@zlantr N lassq nsqrt nb norm uplo diag m n pA lda bA bW value).
  Proof.
    intros lassq nsqrt nb norm uplo diag m n pA lda bA bW value A sz Hb B1 B2 B3 E. unfold zlantr.
    destruct (negb (norm_ok norm)); [exact I|]. destruct (negb _); [exact I|]. destruct (negb _); [exact I|].
    destruct (Z.ltb_spec m 0); [exact I|]. destruct (Z.ltb_spec n 0); [exact I|].
    destruct (lda <? Z.max 1 m); [exact I|]. destruct (Z.eqb_spec (Z.min n m) 0); [exact I|].
    destruct (first_tile nb m n A sz) as (HA & Em & En & HT); [lia..|exact E|].
    apply (with_vdesc_within _ _ _ _ A sz E). intros ks Hks k Hk. apply in_app_or in Hks. destruct Hks as [Hks|Hks].
    - destruct (norm =? PlasmaMaxNorm); [destruct Hks|]. destruct Hks as [<-|[]]. destruct Hk as [<-|[]]. apply calloc_within.
    - revert ks Hks k Hk. apply (norm_phases_within pA lda bA bW _ A _ value); [assumption..|].
      intros ks Hks k Hk. apply pzlantr_within with (nb := nb) (bA := bA) (value := value) (lassq := lassq) (nsqrt := nsqrt) (uplo := uplo) (diag := diag) (ks := ks); assumption.
  Qed.
End Drivers.
