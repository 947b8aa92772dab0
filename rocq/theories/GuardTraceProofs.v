(* What a region leaves behind when one of its tasks fails: the memory is that of the tasks that
   have run, and these include every task another of them waits for. *)
From Coq Require Import ZArith List Bool Lia.
From Verif Require Import Base DescModel TaskModel TaskSpec TaskProofs MatModel MatProofs RegionProofs
  GuardModel GuardSpec GuardProofs GuardProofs2 GuardAnyProofs.
Import ListNotations.
Open Scope Z_scope.

(* ------------------------------------------------------------------ *)
(* bodies that do not conflict may be exchanged                            *)

Definition cfree {V} (p q : cprog V) : Prop :=
  (forall l, cmay_write p l -> ~ cmay_read q l /\ ~ cmay_write q l) /\ (forall l, cmay_read p l -> ~ cmay_write q l).

Lemma crun_swap : forall V (p q : cprog V) m, cfree p q ->
  meq (fst (crun q (fst (crun p m)))) (fst (crun p (fst (crun q m)))).
Proof.
  intros V. induction p as [i|l k IH|l v p IH]; intros q m [HW HR]; cbn.
  - apply meq_refl.
  - rewrite (crun_frame V q m l) by (apply HR; constructor).
    apply IH. split; intros x Hx; [apply HW|apply HR]; econstructor; eauto.
  - destruct (HW l (cmw_here l v p)) as [R W].
    eapply meq_trans; [apply IH; split; intros x Hx; [apply HW|apply HR]; constructor; assumption|].
    apply crun_meq. apply crun_upd; assumption.
Qed.

Lemma crun_all_swap : forall V (qs : list (cprog V)) p m, Forall (cfree p) qs ->
  meq (fst (crun_all qs (fst (crun p m)))) (fst (crun p (fst (crun_all qs m)))).
Proof.
  intros V. induction qs as [|q qs IH]; intros p m H; cbn; [apply meq_refl|]. inversion H; subst.
  eapply meq_trans; [|apply IH; assumption]. apply crun_all_meq. apply crun_swap. assumption.
Qed.

Lemma crun_all_meq1 : forall V (ps : list (cprog V)) m m', meq m m' ->
  meq (fst (crun_all ps m)) (fst (crun_all ps m')).
Proof. intros V ps m m' H. apply crun_all_meq. assumption. Qed.

Section Trace.
  Context {V : Type}.
  Variable ts : list (ctask V).
  Variable m0 : mem V.
  Hypothesis Hord : forall i j ti tj l, (j < i)%nat ->
    nth_error ts i = Some ti -> nth_error ts j = Some tj ->
    (cmay_write (c_body tj) l /\ (cmay_read (c_body ti) l \/ cmay_write (c_body ti) l)) \/
    (cmay_read (c_body tj) l /\ cmay_write (c_body ti) l) ->
    path (map c_deps ts) j i.

  Notation clean := (clean ts m0).
  Notation shaped := (shaped ts).
  Notation codes := (codes ts m0).

  (* what is left of the tasks that have started, and their bodies *)
  Definition restx (ph : phase V) : cprog V :=
    match ph with Waiting _ => CDone 0 | Running p => p | Finished => CDone 0 end.
  Definition begun (ph : phase V) : bool := match ph with Waiting _ => false | _ => true end.
  Definition bodyx (pt : phase V * ctask V) : cprog V := if begun (fst pt) then c_body (snd pt) else CDone 0.
  Definition bodies (gs : list (phase V)) : list (cprog V) := map bodyx (combine gs ts).
  Definition traced (m : mem V) (gs : list (phase V)) : Prop :=
    meq (fst (crun_all (map restx gs) m)) (fst (crun_all (bodies gs) m0)).

  Lemma combine_at : forall A B (xs : list A) (ys : list B) i x y, length xs = length ys ->
    nth_error xs i = Some x -> nth_error ys i = Some y ->
    combine xs ys = combine (firstn i xs) (firstn i ys) ++ (x, y) :: combine (skipn (S i) xs) (skipn (S i) ys).
  Proof.
    intros A B. induction xs as [|a xs IH]; intros [|b ys] [|i] x y HL E1 E2; cbn in *; try discriminate.
    - congruence.
    - apply f_equal. apply IH; auto.
  Qed.

  Lemma restx_at : forall (gs : list (phase V)) i ph ph', nth_error gs i = Some ph ->
    map restx gs = map restx (firstn i gs) ++ restx ph :: map restx (skipn (S i) gs) /\
    map restx (at_phase i ph' gs) = map restx (firstn i gs) ++ restx ph' :: map restx (skipn (S i) gs).
  Proof.
    intros ps i ph ph' E. destruct (nth_split3 _ ps i ph E) as [EQ _]. split.
    - rewrite EQ at 1. rewrite map_app. reflexivity.
    - unfold at_phase. rewrite map_app. reflexivity.
  Qed.

  Lemma firstn_at : forall (gs : list (phase V)) i ph ph', nth_error gs i = Some ph ->
    firstn i (at_phase i ph' gs) = firstn i gs /\ skipn (S i) (at_phase i ph' gs) = skipn (S i) gs.
  Proof.
    intros gs i ph ph' E. destruct (nth_split3 _ gs i ph E) as [_ L]. unfold at_phase. split.
    - rewrite firstn_app, L, Nat.sub_diag, firstn_O, app_nil_r. apply firstn_all2. lia.
    - replace (S i) with (length (firstn i gs) + 1)%nat at 1 by lia. rewrite skipn_app.
      rewrite skipn_all2 by lia. replace (length (firstn i gs) + 1 - length (firstn i gs))%nat with 1%nat by lia.
      reflexivity.
  Qed.

  Lemma bodies_at : forall gs i ph ph' t, length gs = length ts -> nth_error gs i = Some ph -> nth_error ts i = Some t ->
    exists X Y, bodies gs = X ++ bodyx (ph, t) :: Y /\ bodies (at_phase i ph' gs) = X ++ bodyx (ph', t) :: Y /\
      Y = map bodyx (combine (skipn (S i) gs) (skipn (S i) ts)).
  Proof.
    intros gs i ph ph' t HL E Et.
    exists (map bodyx (combine (firstn i gs) (firstn i ts))), (map bodyx (combine (skipn (S i) gs) (skipn (S i) ts))).
    unfold bodies. split; [|split; [|reflexivity]].
    - rewrite (combine_at _ _ gs ts i ph t HL E Et), map_app. reflexivity.
    - rewrite (combine_at _ _ (at_phase i ph' gs) ts i ph' t), map_app.
      + destruct (firstn_at gs i ph ph' E) as [-> ->]. reflexivity.
      + rewrite (at_phase_len _ _ _ _ _ E). assumption.
      + apply (at_phase_same _ _ _ _ _ E).
      + assumption.
  Qed.

  (* a running task goes on: nothing changes on the side of the bodies *)
  Lemma bodies_same : forall gs i ph ph' t, length gs = length ts -> nth_error gs i = Some ph -> nth_error ts i = Some t ->
    begun ph = begun ph' -> bodies (at_phase i ph' gs) = bodies gs.
  Proof.
    intros gs i ph ph' t HL E Et HB. destruct (bodies_at gs i ph ph' t HL E Et) as (X & Y & -> & -> & _).
    unfold bodyx. cbn [fst snd]. rewrite HB. reflexivity.
  Qed.

  Lemma restx_rest : forall ph l, (cmay_read (restx ph) l -> cmay_read (rest ph) l) /\
    (cmay_write (restx ph) l -> cmay_write (rest ph) l).
  Proof. intros [p|p|] l; cbn; split; intros H; auto; inversion H. Qed.

  (* tasks behind one that has not started do not conflict with it if they have *)
  Lemma later_free : forall gs i p t, shaped gs -> nth_error gs i = Some (Waiting p) -> nth_error ts i = Some t ->
    Forall (cfree (c_body t)) (map restx (skipn (S i) gs)) /\
    Forall (cfree (c_body t)) (map bodyx (combine (skipn (S i) gs) (skipn (S i) ts))).
  Proof.
    intros gs i p t HS E Et.
    assert (NS : forall A (l : list A) n k, nth_error (skipn n l) k = nth_error l (n + k)).
    { intros A. induction l as [|a l IH]; intros [|n] k; cbn; auto. destruct k; reflexivity. }
    assert (Q : forall k ph u, nth_error gs (S i + k) = Some ph -> nth_error ts (S i + k) = Some u -> begun ph = true ->
      cfree (c_body t) (c_body u)).
    { intros k ph u Ek Eu HB.
      assert (NP : ~ path (map c_deps ts) i (S i + k)).
      { intros P. rewrite (path_done ts gs HS i (S i + k) P ph Ek) in E; [discriminate E|].
        intros q ->. discriminate HB. }
      split; intros l Hl; [split|]; intros H; apply NP; apply (Hord (S i + k)%nat i u t l); auto; lia. }
    split; apply Forall_map, Forall_forall.
    - intros ph Hp. apply In_nth_error in Hp. destruct Hp as [k Ek]. rewrite NS in Ek.
      destruct (task_at ts gs (S i + k) ph HS Ek) as (u & Eu & Fu).
      destruct ph as [q|q|]; cbn [restx].
      + split; intros l _; try split; intros H; inversion H.
      + destruct (Q k _ u Ek Eu eq_refl) as [Q1 Q2]. destruct Fu as (F1 & F2 & _).
        split; intros l Hl; [destruct (Q1 l Hl) as [Q3 Q4]; split|]; intros X.
        * apply Q3, F1, X.
        * apply Q4, F2, X.
        * apply (Q2 l Hl), F2, X.
      + split; intros l _; try split; intros H; inversion H.
    - intros [ph u] Hp. apply In_nth_error in Hp. destruct Hp as [k Ek].
      assert (G : forall A B (xs : list A) (ys : list B) k x y, nth_error (combine xs ys) k = Some (x, y) ->
        nth_error xs k = Some x /\ nth_error ys k = Some y).
      { intros A B. induction xs as [|a xs IH]; intros [|b ys] [|n] x y H; cbn in *; try discriminate H.
        - split; congruence.
        - apply IH. assumption. }
      apply G in Ek. destruct Ek as [E1 E2]. rewrite NS in E1, E2. unfold bodyx. cbn [fst snd].
      destruct (begun ph) eqn:HB; [apply (Q k ph u); assumption|].
      split; intros l _; try split; intros H; inversion H.
  Qed.

  Lemma crun_all_mid : forall (X : list (cprog V)) p Y m, Forall (cfree p) Y ->
    meq (fst (crun_all (X ++ p :: Y) m)) (fst (crun p (fst (crun_all (X ++ CDone 0 :: Y) m)))).
  Proof. intros X p Y m H. rewrite !crun_all_app. cbn. apply crun_all_swap. assumption. Qed.

  Lemma traced_start : forall m gs i p, traced m gs -> shaped gs -> nth_error gs i = Some (Waiting p) ->
    traced m (at_phase i (Running p) gs).
  Proof.
    intros m gs i p HT HS E. destruct (task_at ts gs i _ HS E) as (t & Et & Ft). cbn in Ft. subst p.
    destruct (later_free gs i _ t HS E Et) as [F1 F2]. pose proof HS as (HL & _).
    destruct (bodies_at gs i _ (Running (c_body t)) t HL E Et) as (X & Y & E1 & E2 & ->).
    destruct (restx_at gs i _ (Running (c_body t)) E) as [E3 E4]. unfold traced in *.
    rewrite E2, E4. rewrite E1, E3 in HT. cbn [restx] in *. unfold bodyx at 1 in HT. unfold bodyx at 1. cbn [fst snd begun] in *.
    eapply meq_trans; [apply crun_all_mid; assumption|].
    eapply meq_trans; [|apply meq_sym; apply crun_all_mid; assumption].
    apply crun_meq. exact HT.
  Qed.

  Lemma restx_calm : forall gs i p l, shaped gs -> nth_error gs i = Some (Running p) ->
    (cmay_write p l -> Forall (fun q => ~ cmay_read q l /\ ~ cmay_write q l) (map restx (firstn i gs))) /\
    (cmay_read p l -> Forall (fun q => ~ cmay_write q l) (map restx (firstn i gs))).
  Proof.
    intros gs i p l HS E. destruct (earlier_calm ts Hord gs i p l HS E) as [Q1 Q2].
    split; intros H.
    - specialize (Q1 H). rewrite Forall_map in *. eapply Forall_impl; [|exact Q1]. cbn. intros ph [A B].
      destruct (restx_rest ph l) as [R W]. tauto.
    - specialize (Q2 H). rewrite Forall_map in *. eapply Forall_impl; [|exact Q2]. cbn. intros ph A.
      destruct (restx_rest ph l) as [R W]. tauto.
  Qed.

  Lemma traced_read : forall m gs i l k, traced m gs -> shaped gs -> nth_error gs i = Some (Running (CRead l k)) ->
    traced m (at_phase i (Running (k (m l))) gs).
  Proof.
    intros m gs i l k HT HS E. destruct (task_at ts gs i _ HS E) as (t & Et & _). pose proof HS as (HL & _).
    unfold traced in *. rewrite (bodies_same gs i _ (Running (k (m l))) t HL E Et eq_refl).
    destruct (restx_at gs i _ (Running (k (m l))) E) as [E3 E4]. rewrite E4. rewrite E3 in HT.
    eapply meq_trans; [|exact HT]. rewrite !crun_all_app. cbn.
    destruct (restx_calm gs i _ l HS E) as [_ Q]. rewrite crun_all_frame by (apply Q; constructor). apply meq_refl.
  Qed.

  Lemma traced_write : forall m gs i l v p, traced m gs -> shaped gs -> nth_error gs i = Some (Running (CWrite l v p)) ->
    traced (upd m l v) (at_phase i (Running p) gs).
  Proof.
    intros m gs i l v p HT HS E. destruct (task_at ts gs i _ HS E) as (t & Et & _). pose proof HS as (HL & _).
    unfold traced in *. rewrite (bodies_same gs i _ (Running p) t HL E Et eq_refl).
    destruct (restx_at gs i _ (Running p) E) as [E3 E4]. rewrite E4. rewrite E3 in HT.
    eapply meq_trans; [|exact HT]. rewrite !crun_all_app. cbn.
    destruct (restx_calm gs i _ l HS E) as [Q _].
    assert (Q' : Forall (fun q => ~ cmay_read q l /\ ~ cmay_write q l) (map restx (firstn i gs))) by (apply Q; constructor).
    apply crun_all_meq1. apply crun_meq. apply crun_all_upd. assumption.
  Qed.

  Lemma traced_end : forall m gs i c, traced m gs -> shaped gs -> nth_error gs i = Some (Running (CDone c)) ->
    traced m (at_phase i Finished gs).
  Proof.
    intros m gs i c HT HS E. destruct (task_at ts gs i _ HS E) as (t & Et & _). pose proof HS as (HL & _).
    unfold traced in *. rewrite (bodies_same gs i _ Finished t HL E Et eq_refl).
    destruct (restx_at gs i _ Finished E) as [E3 E4]. rewrite E4. rewrite E3 in HT.
    eapply meq_trans; [|exact HT]. rewrite !crun_all_app. cbn. apply meq_refl.
  Qed.

  Definition tinv (s : gstate V) : Prop :=
    exists gs, clean (gmem s) gs /\ shadow (gstatus s) (snd s) gs /\ shaped (snd s) /\ traced (gmem s) gs.

  Lemma tinv_step : forall s s', tinv s -> gstep ts s s' -> tinv s'.
  Proof.
    intros s s' (gs & HC & HD & HS & HT) H. pose proof (shaped_step ts s s' HS H) as HS'.
    pose proof HC as [HG _].
    inversion H as [m st ps i p HR E Est|m st ps i p HR E Est|m st ps i l k E|m st ps i l v p E|m st ps i info E];
      subst; unfold tinv in *; cbn [gstatus gmem fst snd] in *.
    - assert (ps = gs) as -> by (apply shadow_eq; exact HD).
      exists (at_phase i (Running p) gs). split; [apply clean_start; assumption|].
      split; [|split; [assumption|apply traced_start; assumption]].
      apply (shadow_upd _ _ _ _ _ _ _ _ HD E); auto.
    - exists gs. split; [assumption|]. split; [|auto].
      pose proof (shadow_at _ _ _ _ _ HD E ltac:(discriminate)) as Eg.
      rewrite <- (at_phase_id gs i _ Eg). apply (shadow_upd _ _ _ _ _ _ _ _ HD E); auto.
      right. repeat split; auto.
    - pose proof (shadow_at _ _ _ _ _ HD E ltac:(discriminate)) as Eg.
      exists (at_phase i (Running (k (m l))) gs). split; [apply clean_read; assumption|].
      split; [|split; [assumption|apply (traced_read m gs i l k); assumption]].
      apply (shadow_upd _ _ _ _ _ _ _ _ HD E); auto.
    - pose proof (shadow_at _ _ _ _ _ HD E ltac:(discriminate)) as Eg.
      exists (at_phase i (Running p) gs). split; [apply (clean_write ts m0 Hord m gs i l v p); assumption|].
      split; [|split; [assumption|apply (traced_write m gs i l v p); assumption]].
      apply (shadow_upd _ _ _ _ _ _ _ _ HD E); auto.
    - pose proof (shadow_at _ _ _ _ _ HD E ltac:(discriminate)) as Eg.
      unfold report. destruct (Z.eqb_spec info 0) as [->|NI].
      + exists (at_phase i Finished gs). split; [apply clean_end0; assumption|].
        split; [|split; [assumption|apply (traced_end m gs i 0); assumption]].
        apply (shadow_upd _ _ _ _ _ _ _ _ HD E); auto.
      + exists gs. split; [assumption|]. split; [|split; assumption].
        rewrite <- (at_phase_id gs i _ Eg). apply (shadow_upd _ _ _ _ _ _ _ _ HD E); auto.
  Qed.

  Lemma tinv_start : tinv (gstart ts m0).
  Proof.
    exists (map (fun t => Waiting (c_body t)) ts). split; [|split; [|split]].
    - split; [apply start_shaped|]. cbn. rewrite map_map. cbn. apply same_refl.
    - split; [reflexivity|]. cbn. intros i p g E1 E2. left. congruence.
    - apply start_shaped.
    - unfold traced, bodies. cbn [gmem gstart fst].
      assert (G : forall (l : list (ctask V)) m, fst (crun_all (map restx (map (fun t => Waiting (c_body t)) l)) m) = m).
      { induction l as [|t l IH]; intros m; cbn; auto. }
      assert (K : forall (l : list (ctask V)) m,
        fst (crun_all (map bodyx (combine (map (fun t => Waiting (c_body t)) l) l)) m) = m).
      { induction l as [|t l IH]; intros m; cbn; auto. }
      rewrite G, K. apply meq_refl.
  Qed.

  Lemma tinv_steps : forall s, gsteps ts (gstart ts m0) s -> tinv s.
  Proof.
    assert (G : forall s s', gsteps ts s s' -> tinv s -> tinv s').
    { intros s s' H. induction H; auto. intros HI. apply IHgsteps. eapply tinv_step; eauto. }
    intros s H. apply (G _ _ H). apply tinv_start.
  Qed.

  (* at the end: which tasks have run, what they have left, and that they had no failed predecessor *)
  Lemma trace_result : forall s, gsteps ts (gstart ts m0) s -> gend s ->
    exists ex : list bool, length ex = length ts /\
      meq (gmem s) (fst (crun_all (map (fun et : bool * ctask V => if fst et then c_body (snd et) else CDone 0) (combine ex ts)) m0)) /\
      (forall i j, path (map c_deps ts) i j -> nth_error ex j = Some true ->
         nth_error ex i = Some true /\ nth_error codes i = Some 0).
  Proof.
    intros s H HE. destruct (tinv_steps s H) as (gs & HC & HD & HS & HT). pose proof HC as [HG _].
    exists (map begun gs). split; [|split].
    - rewrite map_length. apply HG.
    - unfold traced, bodies in HT.
      assert (E : map (fun et : bool * ctask V => if fst et then c_body (snd et) else CDone 0) (combine (map begun gs) ts)
        = map bodyx (combine gs ts)).
      { clear. revert gs. induction ts as [|t l IH]; intros [|g gs]; cbn; try reflexivity. rewrite IH. reflexivity. }
      rewrite E. eapply meq_trans; [|exact HT].
      assert (G : forall l m, Forall (fun ph => ph = Finished \/ held ph) l -> fst (crun_all (map restx l) m) = m).
      { induction l as [|ph l IH]; intros m F; [reflexivity|]. inversion F as [|? ? F1 F2]; subst. cbn. rewrite IH by assumption.
        destruct F1 as [->|F1]; [reflexivity|]. destruct ph as [p|[c| |]|]; cbn in *; try contradiction; reflexivity. }
      rewrite G; [apply meq_refl|]. apply Forall_forall. intros g Hg. apply In_nth_error in Hg. destruct Hg as [i Eg].
      destruct HD as [HL HD]. destruct (nth_error (snd s) i) as [ph|] eqn:Ep.
      + assert (ph = Finished) as ->.
        { unfold gend in HE. rewrite Forall_forall in HE. apply HE. eapply nth_error_In; eauto. }
        destruct (HD i _ g Ep Eg) as [<-|(_ & _ & HH)]; auto.
      + apply nth_error_None in Ep. rewrite HL in Ep. apply nth_error_None in Ep. congruence.
    - intros i j HP Ej. rewrite nth_error_map in *. destruct (nth_error gs j) as [ph|] eqn:Eg; [|discriminate Ej].
      cbn in Ej. injection Ej as Ej. assert (NW : forall p, ph <> Waiting p) by (intros p ->; discriminate Ej).
      rewrite (path_done ts gs HG i j HP ph Eg NW). split; [reflexivity|].
      eapply started_code; eauto.
  Qed.
End Trace.

(* ------------------------------------------------------------------ *)
(* the same in terms of what the tasks compute                            *)

Section Run.
  Context {V : Type}.

  (* some of the tasks, in order *)
  Definition xrun (L : list (bool * ktask V)) (M : mem V) : mem V :=
    fold_left (fun (M : mem V) (p : bool * ktask V) => if fst p then k_fun (snd p) M else M) L M.

  (* a task that has run had to wait for the earlier ones it conflicts with *)
  Definition xclosed (L : list (bool * ktask V)) : Prop :=
    forall l1 p l2 q l3, L = l1 ++ p :: l2 ++ q :: l3 -> kconflict (snd p) (snd q) -> fst q = true -> fst p = true.

  Lemma xclosed_init : forall L p, xclosed (L ++ [p]) -> xclosed L.
  Proof.
    intros L p H l1 a l2 b l3 ->. apply (H l1 a l2 b (l3 ++ [p])).
    rewrite <- app_assoc. cbn [app]. rewrite <- app_assoc. reflexivity.
  Qed.

  Lemma xclosed_last : forall L p q, xclosed (L ++ [q]) -> In p L -> fst q = true -> fst p = false ->
    ~ kconflict (snd p) (snd q).
  Proof.
    intros L p q H HI HQ HP HK. apply in_split in HI. destruct HI as (l1 & l2 & ->).
    rewrite (H l1 p l2 q []) in HP; [discriminate HP|rewrite <- app_assoc; reflexivity|assumption|assumption].
  Qed.

  (* the value a task leaves at a place depends on what it reads and on that place *)
  Definition klocal (k : ktask V) : Prop :=
    forall (M M' : mem V) l, (forall x, k_reads k x -> M x = M' x) -> M l = M' l -> k_fun k M l = k_fun k M' l.

  Lemma crun_local : forall (p : cprog V) m m' l, (forall x, cmay_read p x -> m x = m' x) -> m l = m' l ->
    fst (crun p m) l = fst (crun p m') l.
  Proof.
    induction p as [c|x k IH|x v p IH]; intros m m' l HR HL; cbn.
    - assumption.
    - rewrite (HR x) by constructor. apply IH; [|assumption]. intros y Hy. apply HR. econstructor; eauto.
    - apply IH.
      + intros y Hy. unfold upd. destruct (loc_eqb_spec y x); [reflexivity|]. apply HR. constructor. assumption.
      + unfold upd. destruct (loc_eqb_spec l x); [reflexivity|assumption].
  Qed.

  Lemma cimplements_local : forall t (k : cktask V), cimplements t k -> klocal (ck_task k).
  Proof.
    intros t k (_ & R & _ & _ & F & _) M M' l HR HL. rewrite <- (F M l), <- (F M' l). apply crun_local; auto.
  Qed.

  Lemma xrun_snoc : forall L (e : bool) k M, xrun (L ++ [(e, k)]) M = if e then k_fun k (xrun L M) else xrun L M.
  Proof. intros L e k M. unfold xrun. rewrite fold_left_app. reflexivity. Qed.

  (* where no task has been left out, nothing is different *)
  Lemma xrun_agree : forall L M l, Forall ksound (map snd L) -> Forall klocal (map snd L) -> xclosed L ->
    (forall p, In p L -> fst p = false -> ~ k_writes (snd p) l) ->
    xrun L M l = krun (map snd L) M l.
  Proof.
    intros L M. induction L as [|[e k] L IH] using rev_ind; intros l HS HE HC HN; [reflexivity|].
    rewrite map_app in HS, HE. apply Forall_app in HS. destruct HS as [HS1 HS2].
    apply Forall_app in HE. destruct HE as [HE1 HE2].
    inversion HS2 as [|? ? [K1 _] _]; subst. inversion HE2 as [|? ? K2 _]; subst.
    rewrite xrun_snoc, map_app, krun_app. cbn [map krun snd] in *.
    assert (HN' : forall p, In p L -> fst p = false -> ~ k_writes (snd p) l)
      by (intros p Hp; apply HN; apply in_or_app; left; assumption).
    assert (HC' := xclosed_init L _ HC).
    destruct e.
    - apply K2; [|apply IH; auto]. intros x Hx. apply IH; auto.
      intros p Hp Fp Wp. apply (xclosed_last L p (true, k) HC Hp eq_refl Fp). exists x. left. auto.
    - rewrite K1; [apply IH; auto|]. apply (HN (false, k)); [|reflexivity]. apply in_or_app. right. left. reflexivity.
  Qed.

  (* a place keeps its value or has been written last by a task that has run, with the value the
     task writes when all tasks run *)
  Lemma xrun_last : forall L M l, Forall ksound (map snd L) -> Forall klocal (map snd L) -> xclosed L ->
    (forall p, In p L -> k_writes (snd p) l \/ ~ k_writes (snd p) l) ->
    xrun L M l = M l \/
    exists l1 k l2, L = l1 ++ (true, k) :: l2 /\ k_writes k l /\ xrun L M l = k_fun k (krun (map snd l1) M) l.
  Proof.
    intros L M l. induction L as [|[e k] L IH] using rev_ind; intros HS HE HC HD; [left; reflexivity|].
    rewrite map_app in HS, HE. apply Forall_app in HS. destruct HS as [HS1 HS2].
    apply Forall_app in HE. destruct HE as [HE1 HE2].
    inversion HS2 as [|? ? [K1 K3] _]; subst. inversion HE2 as [|? ? K2 _]; subst. cbn [snd] in *.
    assert (HC' := xclosed_init L _ HC).
    assert (HD' : forall p, In p L -> k_writes (snd p) l \/ ~ k_writes (snd p) l)
      by (intros p Hp; apply HD; apply in_or_app; left; assumption).
    rewrite xrun_snoc.
    assert (OLD : xrun L M l = M l \/ exists l1 k0 l2, L ++ [(e, k)] = l1 ++ (true, k0) :: l2 /\ k_writes k0 l /\
      xrun L M l = k_fun k0 (krun (map snd l1) M) l).
    { destruct (IH HS1 HE1 HC' HD') as [H|(l1 & k0 & l2 & -> & H1 & H2)]; [left; assumption|right].
      exists l1, k0, (l2 ++ [(e, k)]). split; [rewrite <- app_assoc; reflexivity|]. auto. }
    destruct e; [|exact OLD].
    destruct (HD (true, k)) as [W|W]; [apply in_or_app; right; left; reflexivity| |]; cbn [snd] in W.
    - right. exists L, k, []. split; [reflexivity|]. split; [assumption|]. apply K3; [|assumption].
      intros x Hx. apply xrun_agree; auto.
      intros p Hp Fp Wp. apply (xclosed_last L p (true, k) HC Hp eq_refl Fp). exists x. left. auto.
    - rewrite K1 by assumption. exact OLD.
  Qed.
End Run.

(* a place of which it can be told which tasks write it keeps its value or holds what the last
   of them to have run writes there; the tasks this one waits for have not failed *)
Definition left_at {V} (ks : list (cktask V)) (M M' : mem V) (l : loc) : Prop :=
  M' l = M l \/
  exists l1 k l2, ks = l1 ++ k :: l2 /\ k_writes (ck_task k) l /\
    M' l = k_fun (ck_task k) (krun (map ck_task l1) M) l /\
    forall a x b, l1 = a ++ x :: b -> linked (ck_task x) (map ck_task b) (ck_task k) ->
      ck_info x (krun (map ck_task a) M) = 0.

Lemma combine_app_inv : forall A B (xs : list A) (ys : list B) l1 x y l2, length xs = length ys ->
  combine xs ys = l1 ++ (x, y) :: l2 ->
  exists y1 y2, ys = y1 ++ y :: y2 /\ y1 = map snd l1 /\ nth_error xs (length l1) = Some x.
Proof.
  intros A B. induction xs as [|a xs IH]; intros [|b ys] l1 x y l2 HL E; cbn in *; try discriminate.
  - destruct l1; discriminate E.
  - destruct l1 as [|[a' b'] l1]; cbn in E.
    + injection E as -> -> E. exists [], ys. split; [reflexivity|]. split; reflexivity.
    + injection E as -> -> E. destruct (IH ys l1 x y l2) as (y1 & y2 & -> & -> & E3); [congruence|assumption|].
      exists (b' :: map snd l1), y2. auto.
Qed.

Lemma gregion_intro_trace : forall V (ks : list (cktask V)) M (Q : mem V -> Z -> Prop),
  Forall kgood (map ck_task ks) -> Forall cksound ks -> klinked (map ck_task ks) ->
  (forall M' st,
     (st = 0 -> Forall (fun c => c = 0) (kcodes ks M) /\ meq M' (krun (map ck_task ks) M)) ->
     (st <> 0 -> guilty ks M st) ->
     (forall l, (forall k, In k ks -> ~ k_writes (ck_task k) l) -> M' l = M l) ->
     (forall l, (forall k, In k ks -> k_writes (ck_task k) l \/ ~ k_writes (ck_task k) l) -> left_at ks M M' l) ->
     Q M' st) ->
  gregion_ensures ks M Q.
Proof.
  intros V ks M Q HG HC HK HQ.
  pose proof (gregion_intro_any V ks M (fun M' st =>
    (st = 0 -> Forall (fun c => c = 0) (kcodes ks M) /\ meq M' (krun (map ck_task ks) M)) /\
    (st <> 0 -> guilty ks M st) /\
    (forall l, (forall k, In k ks -> ~ k_writes (ck_task k) l) -> M' l = M l)) HG HC HK) as G.
  destruct G as [G1 G2]; [auto|]. split; [assumption|].
  intros ts s HI HS. destruct (G2 ts s HI HS) as [G3 G4]. split; [|assumption].
  intros HE. destruct (G3 HE) as (R1 & R2 & R3). apply HQ; auto. clear HQ G1 G2 G3 G4 R1 R2 R3. intros l HD.
  assert (HIn : forall i t, nth_error ts i = Some t -> exists k, nth_error ks i = Some k /\ cimplements t k)
    by (intros i t E; eapply Forall2_nth2; eauto).
  assert (HPa : forall j i kj ki l1 l2 l3, ks = l1 ++ kj :: l2 ++ ki :: l3 -> length l1 = j -> (j + S (length l2))%nat = i ->
    linked (ck_task kj) (map ck_task l2) (ck_task ki) -> path (map c_deps ts) j i).
  { intros j i kj ki l1 l2 l3 EK <- <- HL. rewrite (cimplements_deps V ts ks HI), EK.
    rewrite (map_app ck_task l1), map_cons, (map_app ck_task l2), map_cons.
    rewrite <- (map_length ck_task l1), <- (map_length ck_task l2). apply linked_path. assumption. }
  assert (Hord : forall i j ti tj l, (j < i)%nat ->
    nth_error ts i = Some ti -> nth_error ts j = Some tj ->
    (cmay_write (c_body tj) l /\ (cmay_read (c_body ti) l \/ cmay_write (c_body ti) l)) \/
    (cmay_read (c_body tj) l /\ cmay_write (c_body ti) l) ->
    path (map c_deps ts) j i).
  { intros i j ti tj x L Ei Ej HX.
    destruct (HIn i ti Ei) as (ki & Eki & D1 & X1 & W1 & _).
    destruct (HIn j tj Ej) as (kj & Ekj & D2 & X2 & W2 & _).
    destruct (nth_split2 _ ks j i kj ki L Ekj Eki) as (l1 & l2 & l3 & EK & E1 & E2).
    apply (HPa j i kj ki l1 l2 l3); auto. eapply HK.
    - rewrite EK, map_app. cbn [map]. rewrite map_app. reflexivity.
    - exists x. destruct HX as [[A [B|B]]|[A B]]; auto. }
  destruct (implements_codes V ts ks HI HG HC M) as [_ X2].
  destruct (trace_result ts M Hord s HS HE) as (ex & EL & EM & EC). unfold codes in EC. rewrite X2 in EC.
  assert (LK : length ts = length ks) by (clear -HI; induction HI; cbn; congruence).
  assert (LX : length ex = length (map ck_task ks)) by (rewrite map_length; congruence).
  assert (XR : meq (gmem s) (xrun (combine ex (map ck_task ks)) M)).
  { eapply meq_trans; [exact EM|]. clear -HI EL. revert ex EL M.
    induction HI as [|t k ts ks HT HI IH]; intros [|e ex] EL M; cbn in *; try discriminate; [apply meq_refl|].
    unfold xrun. cbn [fold_left fst snd]. fold (xrun (combine ex (map ck_task ks)) (if e then k_fun (ck_task k) M else M)).
    injection EL as EL. eapply meq_trans; [|apply IH; assumption]. apply crun_all_meq1.
    destruct e; [apply HT|apply meq_refl]. }
  assert (SN : map snd (combine ex (map ck_task ks)) = map ck_task ks).
  { clear -LX. revert LX. generalize (map ck_task ks). revert ex.
    induction ex as [|e ex IH]; intros [|k ks'] E; cbn in *; try discriminate; [reflexivity|]. rewrite IH by congruence. reflexivity. }
  assert (PK : forall i j ki kj l1 l2 l3, combine ex (map ck_task ks) = l1 ++ (i, ki) :: l2 ++ (j, kj) :: l3 ->
    linked ki (map snd l2) kj -> j = true -> i = true /\ nth_error (kcodes ks M) (length l1) = Some 0).
  { intros i j ki kj l1 l2 l3 E HL ->.
    assert (Ei : nth_error ex (length l1) = Some i).
    { destruct (combine_app_inv _ _ _ _ _ _ _ _ LX E) as (_ & _ & _ & _ & Z). exact Z. }
    assert (Ej : nth_error ex (length l1 + S (length l2)) = Some true).
    { replace (length l1 + S (length l2))%nat with (length (l1 ++ (i, ki) :: l2)) by (rewrite app_length; reflexivity).
      assert (E' : combine ex (map ck_task ks) = (l1 ++ (i, ki) :: l2) ++ (true, kj) :: l3) by (rewrite E, <- app_assoc; reflexivity).
      destruct (combine_app_inv _ _ _ _ _ _ _ _ LX E') as (_ & _ & _ & _ & Z). exact Z. }
    destruct (EC (length l1) (length l1 + S (length l2))%nat) as [A B]; [|assumption|].
    - rewrite (cimplements_deps V ts ks HI). rewrite <- SN, E. rewrite (map_app snd l1), map_cons, (map_app snd l2), map_cons.
      cbn [snd]. pose proof (linked_path V _ _ _ HL (map snd l1) (map snd l3)) as P. rewrite !map_length in P. exact P.
    - split; [congruence|assumption]. }
  destruct (xrun_last (combine ex (map ck_task ks)) M l) as [H|(l1 & k & l2 & E & W & H)].
  - rewrite SN. eapply Forall_impl; [|exact HG]. intros k []. assumption.
  - rewrite SN. clear -HI. induction HI as [|t k ts ks HT HI IH]; constructor; [|assumption].
    eapply cimplements_local; eauto.
  - intros l1 [e1 k1] l2 [e2 k2] l3 E HKc HT. cbn [fst snd] in *.
    destruct (PK _ _ _ _ _ _ _ E) as [Z _]; [|assumption|assumption].
    apply (HK (map snd l1) k1 (map snd l2) k2 (map snd l3)); [|assumption].
    rewrite <- SN, E, map_app, map_cons, map_app, map_cons. reflexivity.
  - intros [e k] Hp. apply in_combine_r in Hp. apply in_map_iff in Hp. destruct Hp as (c & <- & Hc). apply HD. assumption.
  - left. rewrite (XR l). assumption.
  - right. destruct (combine_app_inv _ _ _ _ _ _ _ _ LX E) as (y1 & y2 & E1 & E2 & E3).
    apply map_eq_app in E1. destruct E1 as (k1 & k2 & -> & F1 & F2).
    destruct k2 as [|c k2]; [discriminate F2|]. cbn in F2. injection F2 as F2 _. subst k.
    exists k1, c, k2. split; [reflexivity|]. split; [assumption|]. split.
    + rewrite (XR l), H, F1, E2. reflexivity.
    + intros a x b -> HL. rewrite map_app, map_cons in F1. rewrite E2 in F1. symmetry in F1.
      apply map_eq_app in F1. destruct F1 as (la & lb & -> & Fa & Fb).
      destruct lb as [|[e kx] lb]; [discriminate Fb|]. cbn in Fb. injection Fb as Fx Fb. subst kx.
      destruct (PK e true (ck_task x) (ck_task c) la lb l2) as [_ Z].
      * rewrite E, <- app_assoc. reflexivity.
      * rewrite Fb. assumption.
      * reflexivity.
      * rewrite <- app_assoc in Z. cbn [app] in Z.
        replace (length la) with (length a) in Z.
        -- rewrite kcodes_nth in Z. congruence.
        -- rewrite <- (map_length ck_task a), <- Fa, map_length. reflexivity.
Qed.
