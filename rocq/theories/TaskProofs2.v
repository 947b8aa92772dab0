From Coq Require Import ZArith List Lia.
From Verif Require Import TaskModel TaskSpec TaskProofs.
Import ListNotations.
Open Scope Z_scope.

Lemma declared_deterministic :
  forall V (tile : loc -> loc) (ts : list (task V)) (m : mem V) s,
  Forall (declares tile) ts ->
  steps ts (region_start ts m) s -> region_end s ->
  forall l, fst s l = run_all (map t_body ts) m l.
Proof.
  intros V tile ts m s HD HS HE. apply (region_deterministic ts); auto.
  apply ordered_path. apply declared_ordered with tile; assumption.
Qed.

Lemma declared_progress :
  forall V (tile : loc -> loc) (ts : list (task V)) (m : mem V) s,
  Forall (declares tile) ts ->
  steps ts (region_start ts m) s -> ~ region_end s ->
  exists s', step ts s s'.
Proof.
  intros V tile ts m s HD HS HE. apply (region_progress ts) with m; auto.
  apply ordered_path. apply declared_ordered with tile; assumption.
Qed.

Definition xx : loc := (0, 0).
Definition xy : loc := (1, 0).
Definition xt : list (task Z) :=
  [ mktask [dep_inout xx; dep_out xy]
      (Read xx (fun v => Write xx (v + 1) (Write xy (v + 1) Done)));
    mktask [dep_inout xx; dep_inout xy]
      (Read xy (fun w => Write xy (2 * w) (Read xx (fun v => Write xx (v * w) Done)))) ].
Lemma ex_tasks_declared : Forall (declares (fun l => l)) xt /\
  run_all (map t_body xt) (fun _ => 5) xx = 36.
Proof.
  split; [|reflexivity].
  repeat constructor; cbn; intros l H;
  repeat match goal with
  | H : may_read _ _ |- _ => inversion H; clear H; subst
  | H : may_write _ _ |- _ => inversion H; clear H; subst
  end; cbn; eauto;
  try (eexists; split; [left; reflexivity|]; split; [reflexivity|]; discriminate);
  try (eexists; split; [right; left; reflexivity|]; split; [reflexivity|]; discriminate);
  try (eexists; split; [left; reflexivity|]; reflexivity);
  try (eexists; split; [right; left; reflexivity|]; reflexivity).
Qed.

Definition xr : list (task Z) :=
  [ mktask [dep_out xx] (Write xx 1 Done); mktask [] (Write xx 2 Done) ].
Lemma ex_racy_differs : exists s, steps xr (region_start xr (fun _ => 0)) s /\
  region_end s /\ fst s xx <> run_all (map t_body xr) (fun _ => 0) xx.
Proof.
  eexists. split; [|split].
  - eapply steps_cons; [|eapply steps_cons; [|eapply steps_cons; [|eapply steps_cons; [|apply steps_refl]]]].
    + eapply step_tick with (i := 1%nat); [|reflexivity].
      constructor. intros j ti tj Hj Ei Ej D. destruct j; [|lia].
      cbn in Ei, Ej. injection Ei as <-. injection Ej as <-. 
      destruct D as (d & d' & _ & [] & _).
    + eapply step_write with (i := 1%nat); [|reflexivity].
      constructor. intros j ti tj Hj Ei Ej D. destruct j; [|lia].
      cbn in Ei, Ej. injection Ei as <-. injection Ej as <-. 
      destruct D as (d & d' & _ & [] & _).
    + eapply step_tick with (i := 0%nat); [|reflexivity].
      constructor. intros j ti tj Hj. lia.
    + eapply step_write with (i := 0%nat); [|reflexivity].
      constructor. intros j ti tj Hj. lia.
  - repeat constructor.
  - cbn. discriminate.
Qed.
