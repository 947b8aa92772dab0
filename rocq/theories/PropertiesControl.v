(* Properties C09, C10, C11 and C30: options, tuning, asynchronous status, constants. *)
From Coq Require Import ZArith List Bool.
From Verif Require Import Base DescModel ControlModel ControlSpec ControlProofs.
Import ListNotations.
Open Scope Z_scope.

(* C09: after any history, plasma_get reports the value the specification predicts, and is
   refused when the library is not ready *)
Theorem C09_get : forall h o,
  (ready (rev h) -> exists v, holds (rev h) o v /\ plasma_get (option_code o) (after h) = (PlasmaSuccess, Some v)) /\
  (~ ready (rev h) -> plasma_get (option_code o) (after h) = (PlasmaErrorNotInitialized, None)).
Proof. exact get_main. Qed.
Print Assumptions C09_get.

(* C09: the predicted value is unique, being what plasma_get reports *)
Theorem C09_value : forall h o v, holds (rev h) o v ->
  plasma_get (option_code o) (after h) = (PlasmaSuccess, Some v).
Proof. exact get_holds. Qed.
Print Assumptions C09_value.

(* C09: exactly which calls succeed; a call that fails changes nothing *)
Theorem C09_codes : forall h par o v,
  (fst (plasma_init par (after h)) = PlasmaSuccess <-> ~ ready (rev h) /\ par = false) /\
  (fst (plasma_finalize par (after h)) = PlasmaSuccess <-> ready (rev h) /\ par = false) /\
  (fst (plasma_set par (option_code o) v (after h)) = PlasmaSuccess
     <-> ready (rev h) /\ par = false /\ admissible o v) /\
  (fst (plasma_init par (after h)) <> PlasmaSuccess -> snd (plasma_init par (after h)) = after h) /\
  (fst (plasma_finalize par (after h)) <> PlasmaSuccess -> snd (plasma_finalize par (after h)) = after h) /\
  (forall p, fst (plasma_set par p v (after h)) <> PlasmaSuccess -> snd (plasma_set par p v (after h)) = after h).
Proof. exact codes_main. Qed.
Print Assumptions C09_codes.

(* a case: set, a refused set, a computation, finalize and initialise again *)
Example C09_case :
  let h := [Init false; Set_ false PlasmaNb 100; Set_ false PlasmaNb 0; Set_ true PlasmaNb 7;
            Compute T_gemm (fun _ => Some 5); Set_ false PlasmaIb 10] in
  holds (rev h) ONb 100 /\ plasma_get PlasmaNb (after h) = (PlasmaSuccess, Some 100) /\
  plasma_get PlasmaNb (after (h ++ [Finalize false])) = (PlasmaErrorNotInitialized, None) /\
  plasma_get PlasmaNb (after (h ++ [Finalize false; Init false])) = (PlasmaSuccess, Some 256).
Proof.
  cbn [rev app]. split; [|repeat split; reflexivity].
  assert (R : ready [Init false]) by apply ready_init.
  assert (K : forall c h, ready h -> (forall par, c <> Finalize par) -> ready (c :: h))
    by (intros c h Hr Hc; apply ready_keep; [assumption|intros par E; destruct (Hc par E)]).
  assert (R2 : ready [Set_ false PlasmaNb 100; Init false]) by (apply K; [assumption|discriminate]).
  assert (R3 : ready [Set_ false PlasmaNb 0; Set_ false PlasmaNb 100; Init false]) by (apply K; [assumption|discriminate]).
  assert (R4 : ready [Set_ true PlasmaNb 7; Set_ false PlasmaNb 0; Set_ false PlasmaNb 100; Init false])
    by (apply K; [assumption|discriminate]).
  assert (R5 : ready [Compute T_gemm (fun _ => Some 5); Set_ true PlasmaNb 7; Set_ false PlasmaNb 0;
    Set_ false PlasmaNb 100; Init false]) by (apply K; [assumption|discriminate]).
  apply holds_keep; [assumption|apply K; [assumption|discriminate]| |intros; discriminate].
  apply holds_keep; [assumption|assumption| |intros; discriminate].
  apply holds_keep; [assumption|assumption| |intros; discriminate].
  apply holds_keep; [assumption|assumption| |].
  - apply (holds_set [Init false] ONb 100); [assumption|reflexivity].
  - intros w E. injection E as <-. cbn. intros F. discriminate.
Qed.

(* C10: a computational call, whatever the tuner would compute, changes no option *)
Theorem C10_compute : forall h p t outs,
  plasma_get p (after (h ++ [Compute t outs])) = plasma_get p (after h).
Proof. exact compute_main. Qed.
Print Assumptions C10_compute.

(* C10: computational calls anywhere in the history can be left out *)
Theorem C10_erase : forall h p,
  plasma_get p (after h)
  = plasma_get p (after (filter (fun c => match c with Compute _ _ => false | _ => true end) h)).
Proof. exact compute_erase'. Qed.
Print Assumptions C10_erase.

(* a case: tuning is enabled and the tuner would store 5, 6 and 7 *)
Example C10_case :
  let outs := fun k => nth_error [5; 6; 7] k in
  plasma_get PlasmaTuning (after [Init false; Set_ false PlasmaNb 100]) = (PlasmaSuccess, Some PlasmaEnabled) /\
  plasma_get PlasmaNb (after [Init false; Set_ false PlasmaNb 100; Compute T_getrf outs]) = (PlasmaSuccess, Some 100) /\
  x_nb (run_tuner T_getrf outs (mkctx 1 1 100 64 1 0)) = 5 /\
  x_threads (run_tuner T_getrf outs (mkctx 1 1 100 64 1 0)) = 7.
Proof. repeat split. Qed.

(* C11: the sequence reports its most recent failure *)
Theorem C11_last_failure : forall h q r st s, failure (rev h) q = Some (r, st) ->
  a_status (aafter h s) q = st /\ a_failed (aafter h s) q = Some r.
Proof. exact async_main. Qed.
Print Assumptions C11_last_failure.

(* C11: a failure is not turned into success before the sequence is initialised again *)
Theorem C11_sticky : forall h1 h2 q r st s, st <> PlasmaSuccess ->
  ~ In (SequenceInit q) h2 ->
  (forall r' st', In (RequestFail q r' st') h2 -> st' <> PlasmaSuccess) ->
  a_status (aafter (h1 ++ RequestFail q r st :: h2) s) q <> PlasmaSuccess.
Proof. exact async_sticky. Qed.
Print Assumptions C11_sticky.

(* C11: the request keeps its own status *)
Theorem C11_request : forall h1 h2 q r st s,
  (forall c, In c h2 -> c <> RequestInit r /\ forall q' st', c <> RequestFail q' r st') ->
  a_request (aafter (h1 ++ RequestFail q r st :: h2) s) r = st.
Proof. exact async_request. Qed.
Print Assumptions C11_request.

(* C11: without a failure since initialisation the status is success *)
Theorem C11_success : forall h q s, failure (rev h) q = None -> In (SequenceInit q) h ->
  a_status (aafter h s) q = PlasmaSuccess /\ a_failed (aafter h s) q = None.
Proof. exact async_none. Qed.
Print Assumptions C11_success.

(* a case: two sequences, two failures in the first, from arbitrary initial contents *)
Example C11_case : forall s,
  let h := [SequenceInit 1; SequenceInit 2; RequestInit 8; RequestInit 9; RequestFail 1 8 3; RequestFail 1 9 7] in
  failure (rev h) 1 = Some (9, 7) /\ failure (rev h) 2 = None /\
  a_status (aafter h s) 1 = 7 /\ a_status (aafter h s) 2 = PlasmaSuccess /\ a_request (aafter h s) 8 = 3.
Proof. intros. repeat split. Qed.

(* C30: the six letter options and the norms other than '2' are read as the table says, and
   survive translation to a constant and back *)
Theorem C30_round_trip : forall f t,
  In (f, t) [(trans_const, t_trans); (diag_const, t_diag); (side_const, t_side); (direct_const, t_direct);
             (storev_const, t_storev); (uplo_const, t_uplo); (norm_const, t_norm)] ->
  reads f t /\ writes lapack_const t /\
  (forall c, In c (flat_map snd t) -> f (lapack_const (f c)) = f c) /\
  (forall k, In k (map fst t) -> f (lapack_const k) = k) /\
  (forall k k', In k (map fst t) -> In k' (map fst t) -> lapack_const k = lapack_const k' -> k = k').
Proof. exact round_trip_all. Qed.
Print Assumptions C30_round_trip.

(* C30: characters that are not valid are reported as such (uplo: as a general matrix) *)
Theorem C30_invalid : forall c,
  (~ In c (flat_map snd t_trans) -> trans_const c = PlasmaInvalid) /\
  (~ In c (flat_map snd t_diag) -> diag_const c = PlasmaInvalid) /\
  (~ In c (flat_map snd t_side) -> side_const c = PlasmaInvalid) /\
  (~ In c (flat_map snd t_direct) -> direct_const c = PlasmaInvalid) /\
  (~ In c (flat_map snd t_storev) -> storev_const c = PlasmaInvalid) /\
  (~ In c (flat_map snd t_uplo) -> uplo_const c = PlasmaGeneral) /\
  (~ In c (50 :: flat_map snd t_norm) -> norm_const c = PlasmaInvalid) /\
  (~ In c (flat_map snd t_job) -> job_const c = PlasmaInvalid) /\
  (~ In c (flat_map snd t_range) -> range_const c = PlasmaInvalid).
Proof. exact invalid_all. Qed.
Print Assumptions C30_invalid.

(* C30 does not hold for job and range constants: every one of them is written as NUL; nor
   for the 2-norm, written 'T', which is not read back; nor for PlasmaW (501), which is
   written 'A', because a comma is missing in the table (plasma_core_blas.h:94) *)
Theorem C30_job_refuted : exists c k, In c (flat_map snd t_job) /\ job_const c = k /\ k <> PlasmaInvalid /\
  lapack_const k = 0 /\ job_const (lapack_const k) <> k.
Proof. exact job_refuted. Qed.
Print Assumptions C30_job_refuted.

Theorem C30_range_refuted : exists c k, In c (flat_map snd t_range) /\ range_const c = k /\ k <> PlasmaInvalid /\
  lapack_const k = 0 /\ range_const (lapack_const k) <> k.
Proof. exact range_refuted. Qed.
Print Assumptions C30_range_refuted.

Theorem C30_norm_refuted : exists c k, norm_const c = k /\ k <> PlasmaInvalid /\ norm_const (lapack_const k) = PlasmaInvalid.
Proof. exact norm_refuted. Qed.
Print Assumptions C30_norm_refuted.

(* 501 is PlasmaW (include/plasma_types.h:116), 87 is 'W', 65 is 'A' *)
Theorem C30_W_refuted : exists k, k = 501 /\ lapack_const k <> 87 /\ lapack_const k = 65.
Proof. exact W_refuted. Qed.
Print Assumptions C30_W_refuted.

Example C30_case : trans_const 99 = 113 /\ lapack_const 113 = 67 /\ trans_const 67 = 113 /\ trans_const 120 = PlasmaInvalid.
Proof. repeat split. Qed.
