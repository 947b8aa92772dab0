(* Proofs about the control layer. *)
From Coq Require Import ZArith List Bool Lia String Ascii.
From Verif Require Import Base DescModel ControlModel ControlSpec.
Import ListNotations.
Open Scope Z_scope.

(* newest-first histories *)
Fixpoint run (h : list call) : process :=
  match h with [] => boot | c :: h' => effect c (run h') end.

Lemma after_run : forall h, after h = run (rev h).
Proof.
  intros h. unfold after. rewrite <- fold_left_rev_right.
  induction (rev h) as [|c r IH]; [reflexivity|]. cbn [fold_right run]. rewrite IH. reflexivity.
Qed.

Lemma run_tuner_off : forall t outs c, x_L c = 0 -> run_tuner t outs c = c.
Proof. intros t outs c H. unfold run_tuner. rewrite H. reflexivity. Qed.

(* the Lua handle is never loaded *)
Lemma run_L : forall h, x_L (p_context (run h)) = 0.
Proof.
  induction h as [|c h IH]; [reflexivity|]. cbn [run]. destruct c as [par|par|par p v|p|t outs]; cbn [effect].
  - unfold plasma_init. destruct (p_initialized (run h)); [exact IH|]. destruct par; exact IH.
  - unfold plasma_finalize. destruct (negb _); [exact IH|]. destruct par; exact IH.
  - unfold plasma_set. destruct (negb (p_initialized (run h))); [exact IH|]. destruct par; [exact IH|].
    repeat match goal with |- context [if ?b then _ else _] => destruct b; try exact IH end.
  - exact IH.
  - unfold compute_call. destruct (p_initialized (run h)); [|exact IH].
    destruct (x_tuning (p_context (run h)) =? 0); [exact IH|]. cbn [p_context].
    rewrite run_tuner_off by exact IH. exact IH.
Qed.

Lemma compute_id : forall t outs h, effect (Compute t outs) (run h) = run h.
Proof.
  intros t outs h. cbn [effect]. unfold compute_call. destruct (p_initialized (run h)) eqn:E; [|reflexivity].
  destruct (x_tuning (p_context (run h)) =? 0); [reflexivity|].
  rewrite run_tuner_off by apply run_L. destruct (run h) as [i c]. cbn in *. rewrite E. reflexivity.
Qed.

Lemma set_init : forall par p v s, p_initialized (snd (plasma_set par p v s)) = p_initialized s.
Proof.
  intros. unfold plasma_set. destruct (negb (p_initialized s)); [reflexivity|]. destruct par; [reflexivity|].
  repeat match goal with |- context [if ?b then _ else _] => destruct b; try reflexivity end.
Qed.

Lemma ready_spec : forall h, p_initialized (run h) = true <-> ready h.
Proof.
  induction h as [|c h IH]; cbn [run].
  - split; [discriminate|]. intros H. inversion H.
  - destruct c as [par|par|par p v|p|t outs].
    + cbn [effect]. unfold plasma_init. destruct (p_initialized (run h)) eqn:E.
      * cbn. split; [intros _|intros; assumption]. apply ready_keep; [apply IH; reflexivity|discriminate].
      * destruct par; cbn.
        -- split; [congruence|]. intros H. inversion H; subst. rewrite ?E. apply IH. assumption.
        -- split; [intros _; apply ready_init|reflexivity].
    + cbn [effect]. unfold plasma_finalize. destruct (p_initialized (run h)) eqn:E; cbn [negb snd].
      * destruct par; cbn.
        -- split; [intros _|intros; assumption]. apply ready_keep; [apply IH; reflexivity|].
           intros par' H. congruence.
        -- split; [discriminate|]. intros H. inversion H as [|? ? ? F]; subst.
           specialize (F false eq_refl). discriminate.
      * split; [congruence|]. intros H. inversion H; subst. rewrite ?E. apply IH. assumption.
    + cbn [effect]. rewrite set_init, IH. split; intros H.
      * apply ready_keep; [assumption|discriminate].
      * inversion H; subst; assumption.
    + cbn [effect]. rewrite IH. split; intros H; [apply ready_keep; [assumption|discriminate]|inversion H; subst; assumption].
    + rewrite compute_id, IH. split; intros H; [apply ready_keep; [assumption|discriminate]|inversion H; subst; assumption].
Qed.

(* the field of an option *)
Definition field (o : option_name) (c : context) : Z :=
  match o with OTuning => x_tuning c | ONb => x_nb c | OIb => x_ib c | OThreads => x_threads c | OHouseholder => x_hh c end.

Lemma get_field : forall o s, p_initialized s = true ->
  plasma_get (option_code o) s = (PlasmaSuccess, Some (field o (p_context s))).
Proof. intros o s H. unfold plasma_get. rewrite H. destruct o; reflexivity. Qed.

Lemma set_ok : forall o v s, p_initialized s = true -> admissible o v ->
  fst (plasma_set false (option_code o) v s) = PlasmaSuccess /\
  field o (p_context (snd (plasma_set false (option_code o) v s))) = v /\
  (forall o', o' <> o -> field o' (p_context (snd (plasma_set false (option_code o) v s))) = field o' (p_context s)).
Proof.
  intros o v s H A. unfold plasma_set. rewrite H. cbn [negb].
  destruct o; cbn [admissible] in A; cbn [option_code Z.eqb Pos.eqb PlasmaTuning PlasmaNb PlasmaIb PlasmaNumPanelThreads PlasmaHouseholderMode].
  1-3: rewrite (proj2 (Z.leb_gt v 0)) by lia; cbn; repeat split; auto; intros [] ?; try congruence; reflexivity.
  all: destruct A as [-> | ->]; cbn; repeat split; auto; intros [] ?; try congruence; reflexivity.
Qed.

Lemma set_bad : forall o v s, p_initialized s = true -> ~ admissible o v ->
  plasma_set false (option_code o) v s = (PlasmaErrorIllegalValue, s).
Proof.
  intros o v s H A. unfold plasma_set. rewrite H. cbn [negb].
  destruct o; cbn [admissible] in A; cbn [option_code Z.eqb Pos.eqb PlasmaTuning PlasmaNb PlasmaIb PlasmaNumPanelThreads PlasmaHouseholderMode].
  1-3: rewrite (proj2 (Z.leb_le v 0)) by lia; reflexivity.
  - destruct (Z.eqb_spec v 0); [tauto|]. destruct (Z.eqb_spec v 1); [tauto|].
    unfold PlasmaFlatHouseholder, PlasmaTreeHouseholder.
    rewrite (proj2 (Z.eqb_neq v 0)) by assumption. rewrite (proj2 (Z.eqb_neq v 1)) by assumption. reflexivity.
  - destruct (Z.eqb_spec v 0); [tauto|]. destruct (Z.eqb_spec v 1); [tauto|].
    unfold PlasmaEnabled, PlasmaDisabled.
    rewrite (proj2 (Z.eqb_neq v 0)) by assumption. rewrite (proj2 (Z.eqb_neq v 1)) by assumption. reflexivity.
Qed.

Lemma option_code_inj : forall o o', option_code o = option_code o' -> o = o'.
Proof. intros [] []; cbn; congruence. Qed.

Lemma set_unknown : forall p v s, p_initialized s = true -> (forall o, p <> option_code o) ->
  plasma_set false p v s = (PlasmaErrorIllegalValue, s).
Proof.
  intros p v s H U. unfold plasma_set. rewrite H. cbn [negb].
  rewrite (proj2 (Z.eqb_neq p PlasmaTuning)) by apply (U OTuning).
  rewrite (proj2 (Z.eqb_neq p PlasmaNb)) by apply (U ONb).
  rewrite (proj2 (Z.eqb_neq p PlasmaIb)) by apply (U OIb).
  rewrite (proj2 (Z.eqb_neq p PlasmaNumPanelThreads)) by apply (U OThreads).
  rewrite (proj2 (Z.eqb_neq p PlasmaHouseholderMode)) by apply (U OHouseholder). reflexivity.
Qed.

Lemma admissible_dec : forall o v, {admissible o v} + {~ admissible o v}.
Proof.
  intros o v. destruct o; cbn.
  1-3: destruct (Z_gt_dec v 0); [left|right]; lia.
  all: destruct (Z.eq_dec v 0); [left; auto|]; destruct (Z.eq_dec v 1); [left; auto|right; tauto].
Qed.

Lemma known_dec : forall p, {o | p = option_code o} + {forall o, p <> option_code o}.
Proof.
  intros p. destruct (Z.eq_dec p 0); [left; exists OTuning; assumption|].
  destruct (Z.eq_dec p 1); [left; exists ONb; assumption|].
  destruct (Z.eq_dec p 2); [left; exists OIb; assumption|].
  destruct (Z.eq_dec p 4); [left; exists OThreads; assumption|].
  destruct (Z.eq_dec p 5); [left; exists OHouseholder; assumption|].
  right. intros []; cbn; assumption.
Qed.

Lemma option_dec : forall o o' : option_name, {o = o'} + {o <> o'}.
Proof. decide equality. Qed.

(* the value of an option is the one the specification predicts *)
Lemma holds_field : forall h o v, holds h o v -> field o (p_context (run h)) = v.
Proof.
  intros h o v H. induction H as [h o R|h o v R A|c h o v R R' H IH K]; cbn [run].
  - cbn [effect]. unfold plasma_init. destruct (p_initialized (run h)) eqn:E; [apply ready_spec in E; tauto|].
    destruct o; reflexivity.
  - apply set_ok; [apply ready_spec; assumption|assumption].
  - apply ready_spec in R.
    destruct c as [par|par|par p w|p|t outs].
    + cbn [effect]. unfold plasma_init. rewrite R. exact IH.
    + cbn [effect]. unfold plasma_finalize. rewrite R. cbn [negb]. destruct par; exact IH.
    + cbn [effect]. destruct par.
      * unfold plasma_set. rewrite R. exact IH.
      * destruct (known_dec p) as [[o' E]|U].
        -- subst p. destruct (admissible_dec o' w) as [A|A].
           ++ destruct (option_dec o o') as [->|NE]; [exfalso; eapply K; eauto|].
              rewrite <- IH. apply (proj2 (proj2 (set_ok o' w _ R A))). assumption.
           ++ rewrite set_bad by assumption. exact IH.
        -- rewrite set_unknown by assumption. exact IH.
    + exact IH.
    + rewrite compute_id. exact IH.
Qed.

(* and the specification always predicts one *)
Lemma holds_total : forall h o, ready h -> exists v, holds h o v.
Proof.
  induction h as [|c h IH]; intros o R; [inversion R|].
  destruct (bool_dec (p_initialized (run h)) true) as [E|E].
  - apply ready_spec in E. destruct (IH o E) as [v Hv].
    destruct c as [par|par|par p w|p|t outs];
      try (exists v; apply holds_keep; auto; intros; discriminate).
    destruct par; [exists v; apply holds_keep; auto; intros; discriminate|].
    destruct (Z.eq_dec p (option_code o)) as [->|NE].
    + destruct (admissible_dec o w) as [A|A]; [exists w; apply holds_set; auto|].
      exists v. apply holds_keep; auto. intros w' F. injection F as <-. assumption.
    + exists v. apply holds_keep; auto. intros w' F. congruence.
  - rewrite ready_spec in E. inversion R; subst; [|tauto]. exists (option_default o). apply holds_default. assumption.
Qed.

Lemma get_main : forall h o,
  (ready (rev h) -> exists v, holds (rev h) o v /\ plasma_get (option_code o) (after h) = (PlasmaSuccess, Some v)) /\
  (~ ready (rev h) -> plasma_get (option_code o) (after h) = (PlasmaErrorNotInitialized, None)).
Proof.
  intros h o. rewrite after_run. split; intros R.
  - destruct (holds_total _ o R) as [v Hv]. exists v. split; [assumption|].
    rewrite get_field by (apply ready_spec; assumption). rewrite (holds_field _ _ _ Hv). reflexivity.
  - destruct (p_initialized (run (rev h))) eqn:E; [apply ready_spec in E; tauto|].
    unfold plasma_get. rewrite E. reflexivity.
Qed.

Lemma get_holds : forall h o v, holds (rev h) o v ->
  plasma_get (option_code o) (after h) = (PlasmaSuccess, Some v).
Proof.
  intros h o v H. rewrite after_run.
  assert (R : ready (rev h)). { destruct H; [apply ready_init|apply ready_keep; [assumption|discriminate]|assumption]. }
  rewrite get_field by (apply ready_spec; assumption). rewrite (holds_field _ _ _ H). reflexivity.
Qed.

Lemma codes_main : forall h par o v,
  (fst (plasma_init par (after h)) = PlasmaSuccess <-> ~ ready (rev h) /\ par = false) /\
  (fst (plasma_finalize par (after h)) = PlasmaSuccess <-> ready (rev h) /\ par = false) /\
  (fst (plasma_set par (option_code o) v (after h)) = PlasmaSuccess
     <-> ready (rev h) /\ par = false /\ admissible o v) /\
  (fst (plasma_init par (after h)) <> PlasmaSuccess -> snd (plasma_init par (after h)) = after h) /\
  (fst (plasma_finalize par (after h)) <> PlasmaSuccess -> snd (plasma_finalize par (after h)) = after h) /\
  (forall p, fst (plasma_set par p v (after h)) <> PlasmaSuccess -> snd (plasma_set par p v (after h)) = after h).
Proof.
  intros h par o v. rewrite after_run. rewrite <- ready_spec. set (s := run (rev h)). clearbody s.
  unfold plasma_init, plasma_finalize.
  destruct (p_initialized s) eqn:E; cbn [negb].
  - split; [split; [cbn; discriminate|intros [H _]; congruence]|].
    split; [destruct par; split; [discriminate|intros [_ H]; discriminate|auto|reflexivity]|].
    split.
    { split.
      - intros H. destruct par; [unfold plasma_set in H; rewrite E in H; discriminate|].
        destruct (admissible_dec o v) as [A|A]; [auto|]. rewrite set_bad in H by assumption. discriminate.
      - intros (_ & -> & A). apply set_ok; assumption. }
    split; [reflexivity|]. split; [destruct par; cbn; congruence|].
    intros p H. unfold plasma_set in *. rewrite E in *. cbn [negb] in *. destruct par; [reflexivity|].
    repeat match goal with
           | |- context [if ?b then _ else _] => destruct b; cbn in *; try reflexivity; try congruence
           end.
  - split; [destruct par; split; [discriminate|intros [_ H]; discriminate|split; [congruence|reflexivity]|reflexivity]|].
    split; [split; [discriminate|intros [H _]; congruence]|].
    split; [unfold plasma_set; rewrite E; split; [discriminate|intros [H _]; congruence]|].
    split; [destruct par; cbn; congruence|]. split; [reflexivity|].
    intros p H. unfold plasma_set. rewrite E. reflexivity.
Qed.

Lemma compute_main : forall h p t outs,
  plasma_get p (after (h ++ [Compute t outs])) = plasma_get p (after h).
Proof.
  intros. unfold after. rewrite fold_left_app. cbn [fold_left]. fold (after h).
  rewrite after_run, compute_id. reflexivity.
Qed.

Definition is_compute (c : call) : bool := match c with Compute _ _ => true | _ => false end.

Lemma compute_erase : forall h p,
  plasma_get p (after h) = plasma_get p (after (filter (fun c => negb (is_compute c)) h)).
Proof.
  intros h p. f_equal. induction h as [|c h IH] using rev_ind; [reflexivity|].
  rewrite filter_app. unfold after. rewrite !fold_left_app. fold (after h). fold (after (filter (fun c => negb (is_compute c)) h)).
  rewrite <- IH. destruct c; try reflexivity. cbn [filter is_compute negb fold_left].
  rewrite after_run, compute_id. reflexivity.
Qed.

(* ---------- asynchronous status ---------- *)

Lemma aafter_snoc : forall h c s, aafter (h ++ [c]) s = aeffect c (aafter h s).
Proof. intros. unfold aafter. rewrite fold_left_app. reflexivity. Qed.

Lemma async_main : forall h q r st s, failure (rev h) q = Some (r, st) ->
  a_status (aafter h s) q = st /\ a_failed (aafter h s) q = Some r.
Proof.
  induction h as [|c h IH] using rev_ind; intros q r st s; [discriminate|].
  rewrite rev_app_distr. cbn [rev app failure]. rewrite aafter_snoc.
  destruct c as [q' r' st'|r'|q']; cbn [aeffect a_status a_failed].
  - unfold put. rewrite (Z.eqb_sym q q'). destruct (q' =? q).
    + intros H. injection H as -> ->. auto.
    + intros H. apply IH. assumption.
  - intros H. apply IH. assumption.
  - unfold put. rewrite (Z.eqb_sym q q'). destruct (q' =? q); [discriminate|]. intros H. apply IH. assumption.
Qed.

Lemma async_none : forall h q s, failure (rev h) q = None -> In (SequenceInit q) h ->
  a_status (aafter h s) q = PlasmaSuccess /\ a_failed (aafter h s) q = None.
Proof.
  induction h as [|c h IH] using rev_ind; intros q s; [contradiction|].
  rewrite rev_app_distr, in_app_iff. cbn [rev app failure In]. rewrite aafter_snoc.
  destruct c as [q' r' st'|r'|q']; cbn [aeffect a_status a_failed]; unfold put.
  - rewrite (Z.eqb_sym q q'). destruct (q' =? q); [discriminate|].
    intros H [I|[I|[]]]; [apply IH; assumption|discriminate].
  - intros H [I|[I|[]]]; [apply IH; assumption|discriminate].
  - rewrite (Z.eqb_sym q q'). destruct (Z.eqb_spec q' q) as [->|NE]; [auto|].
    intros H [I|[I|[]]]; [apply IH; assumption|congruence].
Qed.

(* no status is lost *)
Lemma async_sticky : forall h1 h2 q r st s, st <> PlasmaSuccess ->
  ~ In (SequenceInit q) h2 ->
  (forall r' st', In (RequestFail q r' st') h2 -> st' <> PlasmaSuccess) ->
  a_status (aafter (h1 ++ RequestFail q r st :: h2) s) q <> PlasmaSuccess.
Proof.
  intros h1 h2 q r st s Hst HI HF.
  induction h2 as [|c h2 IH] using rev_ind.
  - rewrite aafter_snoc. cbn. unfold put. rewrite Z.eqb_refl. assumption.
  - change (h1 ++ RequestFail q r st :: h2 ++ [c])%list with (h1 ++ (RequestFail q r st :: h2) ++ [c])%list.
    rewrite app_assoc, aafter_snoc.
    assert (IH' : a_status (aafter (h1 ++ RequestFail q r st :: h2) s) q <> PlasmaSuccess).
    { apply IH; [rewrite in_app_iff in HI; tauto|]. intros r' st' I. apply (HF r'). rewrite in_app_iff. auto. }
    destruct c as [q' r' st'|r'|q']; cbn [aeffect a_status]; unfold put; [|assumption|].
    + destruct (Z.eqb_spec q q') as [<-|]; [|assumption]. apply (HF r'). rewrite in_app_iff. cbn. auto.
    + destruct (Z.eqb_spec q q') as [<-|]; [|assumption]. exfalso. apply HI. rewrite in_app_iff. cbn. auto.
Qed.

Lemma async_request : forall h1 h2 q r st s,
  (forall c, In c h2 -> c <> RequestInit r /\ forall q' st', c <> RequestFail q' r st') ->
  a_request (aafter (h1 ++ RequestFail q r st :: h2) s) r = st.
Proof.
  intros h1 h2 q r st s H. induction h2 as [|c h2 IH] using rev_ind.
  - rewrite aafter_snoc. cbn. unfold put. rewrite Z.eqb_refl. reflexivity.
  - change (h1 ++ RequestFail q r st :: h2 ++ [c])%list with (h1 ++ (RequestFail q r st :: h2) ++ [c])%list.
    rewrite app_assoc, aafter_snoc.
    assert (IH' : a_request (aafter (h1 ++ RequestFail q r st :: h2) s) r = st).
    { apply IH. intros c' I. apply H. rewrite in_app_iff. auto. }
    destruct (H c) as [H1 H2]; [rewrite in_app_iff; cbn; auto|].
    destruct c as [q' r' st'|r'|q']; cbn [aeffect a_request]; unfold put; [| |assumption].
    + destruct (Z.eqb_spec r r') as [<-|]; [exfalso; eapply H2; reflexivity|assumption].
    + destruct (Z.eqb_spec r r') as [<-|]; [exfalso; apply H1; reflexivity|assumption].
Qed.

(* ---------- constants ---------- *)

Lemma is_ch_in : forall c l, is_ch c l = true <-> In c (map ch l).
Proof.
  intros c l. unfold is_ch. rewrite existsb_exists, in_map_iff. split.
  - intros (a & I & E). apply Z.eqb_eq in E. exists a. auto.
  - intros (a & E & I). exists a. split; [assumption|]. apply Z.eqb_eq. auto.
Qed.

Ltac split_ch :=
  repeat match goal with
  | H : context [if is_ch ?c ?l then _ else _] |- _ =>
      let E := fresh "E" in destruct (is_ch c l) eqn:E; [apply is_ch_in in E; vm_compute in E|]
  end.

Ltac reads_tac :=
  split;
  [ intros k l c I J; cbn in I;
    repeat match goal with I : _ \/ _ |- _ => destruct I as [I|I] end; try contradiction;
    injection I as <- <-; cbn in J;
    repeat match goal with J : _ \/ _ |- _ => destruct J as [J|J] end; try contradiction;
    subst c; reflexivity
  | intros k c I H; cbn in I; unfold PlasmaInvalid in H; split_ch;
    repeat match goal with I : _ \/ _ |- _ => destruct I as [I|I] end; try contradiction; try lia;
    subst; try discriminate; eexists; (split; [cbn; eauto 8|cbn; auto 8]) ].

Lemma trans_reads : reads trans_const t_trans. Proof. unfold reads, trans_const. reads_tac. Qed.
Lemma diag_reads : reads diag_const t_diag. Proof. unfold reads, diag_const. reads_tac. Qed.
Lemma side_reads : reads side_const t_side. Proof. unfold reads, side_const. reads_tac. Qed.
Lemma direct_reads : reads direct_const t_direct. Proof. unfold reads, direct_const. reads_tac. Qed.
Lemma storev_reads : reads storev_const t_storev. Proof. unfold reads, storev_const. reads_tac. Qed.
Lemma uplo_reads : reads uplo_const t_uplo. Proof. unfold reads, uplo_const. reads_tac. Qed.
Lemma norm_reads : reads norm_const t_norm. Proof. unfold reads, norm_const. reads_tac. Qed.
Lemma job_reads : reads job_const t_job. Proof. unfold reads, job_const. reads_tac. Qed.
Lemma range_reads : reads range_const t_range. Proof. unfold reads, range_const. reads_tac. Qed.

Ltac writes_tac :=
  intros k l I; cbn in I;
  repeat match goal with I : _ \/ _ |- _ => destruct I as [I|I] end; try contradiction;
  injection I as <- <-; vm_compute; auto 8.
Lemma trans_writes : writes lapack_const t_trans. Proof. writes_tac. Qed.
Lemma diag_writes : writes lapack_const t_diag. Proof. writes_tac. Qed.
Lemma side_writes : writes lapack_const t_side. Proof. writes_tac. Qed.
Lemma direct_writes : writes lapack_const t_direct. Proof. writes_tac. Qed.
Lemma storev_writes : writes lapack_const t_storev. Proof. writes_tac. Qed.
Lemma uplo_writes : writes lapack_const t_uplo. Proof. writes_tac. Qed.
Lemma norm_writes : writes lapack_const t_norm. Proof. writes_tac. Qed.

(* letters of a table *)
Definition letters (t : option_table) : list Z := flat_map snd t.

Lemma letters_in : forall t c, In c (letters t) -> exists k l, In (k, l) t /\ In c l.
Proof. intros t c H. apply in_flat_map in H. destruct H as ([k l] & I & J). exists k, l. auto. Qed.

Lemma round_trip : forall f t, reads f t -> writes lapack_const t ->
  (forall c, In c (letters t) -> f (lapack_const (f c)) = f c) /\
  (forall k, In k (map fst t) -> f (lapack_const k) = k) /\
  (forall k k', In k (map fst t) -> In k' (map fst t) -> lapack_const k = lapack_const k' -> k = k').
Proof.
  intros f t [R1 R2] W.
  assert (K : forall k, In k (map fst t) -> f (lapack_const k) = k).
  { intros k I. apply in_map_iff in I. destruct I as ([k' l] & E & I). cbn in E. subst k'. eauto. }
  split; [|split; [exact K|]].
  - intros c H. apply letters_in in H. destruct H as (k & l & I & J). rewrite (R1 k l c I J). eapply R1; eauto.
  - intros k k' I I' E. rewrite <- (K k I), <- (K k' I'), E. reflexivity.
Qed.

Ltac invalid_tac f :=
  intros c H; unfold f;
  repeat match goal with
  | |- context [is_ch ?c ?l] =>
      let E := fresh "E" in destruct (is_ch c l) eqn:E;
      [apply is_ch_in in E; exfalso; apply H; vm_compute in E; vm_compute; intuition auto|]
  end; reflexivity.
Lemma trans_invalid : forall c, ~ In c (letters t_trans) -> trans_const c = PlasmaInvalid. Proof. invalid_tac trans_const. Qed.
Lemma diag_invalid : forall c, ~ In c (letters t_diag) -> diag_const c = PlasmaInvalid. Proof. invalid_tac diag_const. Qed.
Lemma side_invalid : forall c, ~ In c (letters t_side) -> side_const c = PlasmaInvalid. Proof. invalid_tac side_const. Qed.
Lemma direct_invalid : forall c, ~ In c (letters t_direct) -> direct_const c = PlasmaInvalid. Proof. invalid_tac direct_const. Qed.
Lemma storev_invalid : forall c, ~ In c (letters t_storev) -> storev_const c = PlasmaInvalid. Proof. invalid_tac storev_const. Qed.
Lemma uplo_invalid : forall c, ~ In c (letters t_uplo) -> uplo_const c = PlasmaGeneral. Proof. invalid_tac uplo_const. Qed.
Lemma norm_invalid : forall c, ~ In c (50 :: letters t_norm) -> norm_const c = PlasmaInvalid. Proof. invalid_tac norm_const. Qed.
Lemma job_invalid : forall c, ~ In c (letters t_job) -> job_const c = PlasmaInvalid. Proof. invalid_tac job_const. Qed.
Lemma range_invalid : forall c, ~ In c (letters t_range) -> range_const c = PlasmaInvalid. Proof. invalid_tac range_const. Qed.

Lemma compute_erase' : forall h p,
  plasma_get p (after h)
  = plasma_get p (after (filter (fun c => match c with Compute _ _ => false | _ => true end) h)).
Proof.
  intros h p. rewrite compute_erase. do 2 f_equal. apply filter_ext. intros []; reflexivity.
Qed.

Lemma round_trip_all : forall f t,
  In (f, t) [(trans_const, t_trans); (diag_const, t_diag); (side_const, t_side); (direct_const, t_direct);
             (storev_const, t_storev); (uplo_const, t_uplo); (norm_const, t_norm)] ->
  reads f t /\ writes lapack_const t /\
  (forall c, In c (flat_map snd t) -> f (lapack_const (f c)) = f c) /\
  (forall k, In k (map fst t) -> f (lapack_const k) = k) /\
  (forall k k', In k (map fst t) -> In k' (map fst t) -> lapack_const k = lapack_const k' -> k = k').
Proof.
  intros f t I.
  assert (RW : reads f t /\ writes lapack_const t).
  { cbn [In] in I. repeat (destruct I as [I|I]; [apply pair_equal_spec in I; destruct I as [<- <-]|]); try contradiction.
    - exact (conj trans_reads trans_writes).
    - exact (conj diag_reads diag_writes).
    - exact (conj side_reads side_writes).
    - exact (conj direct_reads direct_writes).
    - exact (conj storev_reads storev_writes).
    - exact (conj uplo_reads uplo_writes).
    - exact (conj norm_reads norm_writes). }
  destruct RW as [R W]. split; [exact R|]. split; [exact W|]. exact (round_trip f t R W).
Qed.

Lemma invalid_all : forall c,
  (~ In c (flat_map snd t_trans) -> trans_const c = PlasmaInvalid) /\
  (~ In c (flat_map snd t_diag) -> diag_const c = PlasmaInvalid) /\
  (~ In c (flat_map snd t_side) -> side_const c = PlasmaInvalid) /\
  (~ In c (flat_map snd t_direct) -> direct_const c = PlasmaInvalid) /\
  (~ In c (flat_map snd t_storev) -> storev_const c = PlasmaInvalid) /\
  (~ In c (flat_map snd t_uplo) -> uplo_const c = PlasmaGeneral) /\
  (~ In c (50 :: flat_map snd t_norm) -> norm_const c = PlasmaInvalid) /\
  (~ In c (flat_map snd t_job) -> job_const c = PlasmaInvalid) /\
  (~ In c (flat_map snd t_range) -> range_const c = PlasmaInvalid).
Proof.
  intros c.
  exact (conj (trans_invalid c) (conj (diag_invalid c) (conj (side_invalid c) (conj (direct_invalid c)
        (conj (storev_invalid c) (conj (uplo_invalid c) (conj (norm_invalid c) (conj (job_invalid c) (range_invalid c))))))))).
Qed.

Lemma job_refuted : exists c k, In c (flat_map snd t_job) /\ job_const c = k /\ k <> PlasmaInvalid /\
  lapack_const k = 0 /\ job_const (lapack_const k) <> k.
Proof. exists 65, 305. split; [vm_compute; auto|]. split; [reflexivity|]. split; [discriminate|]. split; [reflexivity|discriminate]. Qed.
Lemma range_refuted : exists c k, In c (flat_map snd t_range) /\ range_const c = k /\ k <> PlasmaInvalid /\
  lapack_const k = 0 /\ range_const (lapack_const k) <> k.
Proof. exists 65, 351. split; [vm_compute; auto|]. split; [reflexivity|]. split; [discriminate|]. split; [reflexivity|discriminate]. Qed.
Lemma norm_refuted : exists c k, norm_const c = k /\ k <> PlasmaInvalid /\ norm_const (lapack_const k) = PlasmaInvalid.
Proof. exists 50, 173. split; [reflexivity|]. split; [discriminate|reflexivity]. Qed.
Lemma W_refuted : exists k, k = 501 /\ lapack_const k <> 87 /\ lapack_const k = 65.
Proof. exists 501. split; [reflexivity|]. split; [discriminate|reflexivity]. Qed.
