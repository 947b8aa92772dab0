(* Model of control/context.c, control/tuning.c, control/async.c, control/constants.c and
   of lapack_const in include/plasma_core_blas.h.
   Simplifications, valid for every definition below: C int is Z; error messages are left
   out; omp_in_parallel() is an input of each call. *)
From Coq Require Import ZArith List Bool String Ascii.
From Verif Require Import Base DescModel.
Import ListNotations.
Open Scope Z_scope.

(* include/plasma_types.h:135 *)
Definition PlasmaErrorEnvironment : Z := -109.
(* include/plasma_types.h:144-154 *)
Definition PlasmaFlatHouseholder : Z := 0.
(* include/plasma_types.h:152 *)
Definition PlasmaDisabled : Z := 0.
(* include/plasma_types.h:153 *)
Definition PlasmaEnabled : Z := 1.
(* include/plasma_types.h:157-165: parameters of plasma_set and plasma_get *)
Definition PlasmaTuning : Z := 0.
(* include/plasma_types.h:159 *)
Definition PlasmaNb : Z := 1.
(* include/plasma_types.h:160 *)
Definition PlasmaIb : Z := 2.
(* include/plasma_types.h:161 *)
Definition PlasmaInplaceOutplace : Z := 3.
(* include/plasma_types.h:162 *)
Definition PlasmaNumPanelThreads : Z := 4.
(* include/plasma_types.h:163 *)
Definition PlasmaHouseholderMode : Z := 5.

(* include/plasma_context.h:29-43, struct plasma_context_t. L = 0 stands for NULL. The
   fields inplace_outplace, max_threads, barrier and ss_* , which no call below reads, are
   left out. *)
Record context := mkctx {
  x_L : Z; x_tuning : Z; x_nb : Z; x_ib : Z; x_threads : Z; x_hh : Z }.

(* control/context.c:22-23: the two static variables *)
Record process := mkproc { p_initialized : bool; p_context : context }.

(* control/context.c:22-23: C zero-initialises static variables *)
Definition boot : process := mkproc false (mkctx 0 0 0 0 0 0).

(* control/tuning.c:29-65 (Lua build) and 117-121 (other build), plasma_tuning_init: the
   Lua state is held in a local variable and never stored in the context *)
Definition tuning_init (c : context) : context := c.

(* control/context.c:165-180 plasma_context_init; the field L is not assigned *)
Definition context_init (c : context) : context :=
  tuning_init (mkctx (x_L c) PlasmaEnabled 256 64 1 PlasmaFlatHouseholder).

(* control/tuning.c:68-73 and 123-126 plasma_tuning_finalize: closes the Lua state when
   there is one, the context is left as it is; control/context.c:186-189 *)
Definition context_finalize (c : context) : context := c.

(* control/context.c:30-47 plasma_init *)
Definition plasma_init (par : bool) (s : process) : Z * process :=
  if p_initialized s then (PlasmaErrorNotInitialized, s)
  else if par then (PlasmaErrorNotInitialized, s)
  else (PlasmaSuccess, mkproc true (context_init (p_context s))).

(* control/context.c:54-71 plasma_finalize *)
Definition plasma_finalize (par : bool) (s : process) : Z * process :=
  if negb (p_initialized s) then (PlasmaErrorNotInitialized, s)
  else if par then (PlasmaErrorEnvironment, s)
  else (PlasmaSuccess, mkproc false (context_finalize (p_context s))).

(* control/context.c:78-127 plasma_set *)
Definition plasma_set (par : bool) (param value : Z) (s : process) : Z * process :=
  let c := p_context s in
  let ok c' := (PlasmaSuccess, mkproc (p_initialized s) c') in
  let illegal := (PlasmaErrorIllegalValue, s) in
  if negb (p_initialized s) then (PlasmaErrorNotInitialized, s)
  else if par then (PlasmaErrorEnvironment, s)
  else if param =? PlasmaTuning then
    if negb (value =? PlasmaEnabled) && negb (value =? PlasmaDisabled) then illegal
    else ok (mkctx (x_L c) value (x_nb c) (x_ib c) (x_threads c) (x_hh c))
  else if param =? PlasmaNb then
    if value <=? 0 then illegal
    else ok (mkctx (x_L c) (x_tuning c) value (x_ib c) (x_threads c) (x_hh c))
  else if param =? PlasmaIb then
    if value <=? 0 then illegal
    else ok (mkctx (x_L c) (x_tuning c) (x_nb c) value (x_threads c) (x_hh c))
  else if param =? PlasmaNumPanelThreads then
    if value <=? 0 then illegal
    else ok (mkctx (x_L c) (x_tuning c) (x_nb c) (x_ib c) value (x_hh c))
  else if param =? PlasmaHouseholderMode then
    if negb (value =? PlasmaFlatHouseholder) && negb (value =? PlasmaTreeHouseholder) then illegal
    else ok (mkctx (x_L c) (x_tuning c) (x_nb c) (x_ib c) (x_threads c) value)
  else illegal.

(* control/context.c:133-159 plasma_get: return code, and the value stored through the
   pointer when it is written at all *)
Definition plasma_get (param : Z) (s : process) : Z * option Z :=
  let c := p_context s in
  if negb (p_initialized s) then (PlasmaErrorNotInitialized, None)
  else if param =? PlasmaTuning then (PlasmaSuccess, Some (x_tuning c))
  else if param =? PlasmaNb then (PlasmaSuccess, Some (x_nb c))
  else if param =? PlasmaIb then (PlasmaSuccess, Some (x_ib c))
  else if param =? PlasmaNumPanelThreads then (PlasmaSuccess, Some (x_threads c))
  else if param =? PlasmaHouseholderMode then (PlasmaSuccess, Some (x_hh c))
  else (PlasmaErrorIllegalValue, None).

(* control/tuning.c:161-442: the context field whose address plasma_tune is given *)
Inductive tuned := TNb | TIb | TThreads.

(* control/tuning.c:76-114 (Lua build) and 129-151 (other build) plasma_tune: what it stores
   through its pointer is not modelled, [out] is any value, or None when it stores nothing *)
Definition plasma_tune (f : tuned) (out : option Z) (c : context) : context :=
  match out with
  | None => c
  | Some v =>
      match f with
      | TNb => mkctx (x_L c) (x_tuning c) v (x_ib c) (x_threads c) (x_hh c)
      | TIb => mkctx (x_L c) (x_tuning c) (x_nb c) v (x_threads c) (x_hh c)
      | TThreads => mkctx (x_L c) (x_tuning c) (x_nb c) (x_ib c) v (x_hh c)
      end
  end.

(* control/tuning.c:154-443: the 28 functions plasma_tune_*, each with the list of fields it
   tunes, and the line of its definition *)
Inductive tuner :=
| T_gbmm | T_gbtrf | T_geadd | T_geinv | T_gelqf | T_gemm | T_geqrf | T_geswp | T_getrf
| T_hetrf | T_lacpy | T_lag2c | T_lange | T_lansy | T_lantr | T_lascl | T_laset | T_lauum
| T_pbtrf | T_poinv | T_potrf | T_symm | T_syr2k | T_syrk | T_tradd | T_trmm | T_trsm | T_trtri.

(* control/tuning.c:154-443: gbtrf 165, geinv 188, gelqf 201, geqrf 222, getrf 243 tune more
   than the tile size *)
Definition tuned_fields (t : tuner) : list tuned :=
  match t with
  | T_gbtrf | T_geinv | T_getrf => [TNb; TIb; TThreads]
  | T_gelqf | T_geqrf => [TNb; TIb]
  | _ => [TNb]
  end.

(* control/tuning.c:154-443: the common shape of the 28 functions; [outs k] is what the
   k-th call of plasma_tune stores *)
Definition run_tuner (t : tuner) (outs : nat -> option Z) (c : context) : context :=
  if x_L c =? 0 then c
  else fst (fold_left (fun ck f => (plasma_tune f (outs (snd ck)) (fst ck), S (snd ck)))
                      (tuned_fields t) (c, O)).

(* compute/z*.c, e.g. compute/zgemm.c:107-183: a computational routine asks
   plasma_context_self (control/context.c:196-202) for the context, refuses to run without
   one, and calls its tuner when tuning is enabled. Its argument checks, quick returns and
   computation, which do not touch the context, are left out. *)
Definition compute_call (t : tuner) (outs : nat -> option Z) (s : process) : process :=
  if p_initialized s then
    if x_tuning (p_context s) =? 0 then s
    else mkproc (p_initialized s) (run_tuner t outs (p_context s))
  else s.

(* the calls a program can make (public functions of control/context.c, and computational
   routines through compute/z*.c) (control/context.c:30-159) *)
Inductive call :=
| Init (par : bool)
| Finalize (par : bool)
| Set_ (par : bool) (param value : Z)
| Get (param : Z)
| Compute (t : tuner) (outs : nat -> option Z).

(* control/context.c:30-159, compute/z*.c: effect of one call on the process *)
Definition effect (c : call) (s : process) : process :=
  match c with
  | Init par => snd (plasma_init par s)
  | Finalize par => snd (plasma_finalize par s)
  | Set_ par p v => snd (plasma_set par p v s)
  | Get _ => s
  | Compute t outs => compute_call t outs s
  end.

(* control/context.c: a program's calls in the order they are made (control/context.c:30-159) *)
Definition after (h : list call) : process := fold_left (fun s c => effect c s) h boot.

(* ---------- control/async.c ---------- *)

(* include/plasma_async.h:21-28 plasma_request_t, plasma_sequence_t; objects are named by
   integers, None is the NULL request pointer *)
Record async := mkasync {
  a_request : Z -> Z;                 (* status of each request *)
  a_status : Z -> Z;                  (* status of each sequence *)
  a_failed : Z -> option Z }.         (* request pointer of each sequence *)

(* assignment through a pointer, as in control/async.c:21-23 *)
Definition put {V} (f : Z -> V) (k : Z) (v : V) : Z -> V := fun x => if x =? k then v else f x.

(* the calls of control/async.c (control/async.c:17-40) *)
Inductive acall :=
| RequestFail (sequence request status : Z)
| RequestInit (request : Z)
| SequenceInit (sequence : Z).

(* control/async.c:17-25 plasma_request_fail, 28-32 plasma_request_init, 35-40
   plasma_sequence_init: new state *)
Definition aeffect (c : acall) (s : async) : async :=
  match c with
  | RequestFail q r st =>
      mkasync (put (a_request s) r st) (put (a_status s) q st) (put (a_failed s) q (Some r))
  | RequestInit r => mkasync (put (a_request s) r PlasmaSuccess) (a_status s) (a_failed s)
  | SequenceInit q => mkasync (a_request s) (put (a_status s) q PlasmaSuccess) (put (a_failed s) q None)
  end.

(* control/async.c:24,31,39: returned value *)
Definition areturn (c : acall) : Z :=
  match c with RequestFail _ _ st => st | _ => PlasmaSuccess end.

(* control/async.c: a program's calls in order, from any initial contents of the objects
   (control/async.c:17-40) *)
Definition aafter (h : list acall) (s : async) : async := fold_left (fun s c => aeffect c s) h s.

(* ---------- control/constants.c ---------- *)

(* include/plasma_types.h:72 *)
Definition PlasmaInvalid : Z := -1.

(* C character constants used by control/constants.c, as integers (ASCII)
   (control/constants.c:32-165) *)
Definition ch (a : ascii) : Z := Z.of_N (N_of_ascii a).

(* control/constants.c: "case 'X': case 'x':" (control/constants.c:32-165) *)
Definition is_ch (c : Z) (l : list ascii) : bool := existsb (fun a => c =? ch a) l.

Open Scope char_scope.

(* control/constants.c:32-39 plasma_diag_const *)
Definition diag_const (c : Z) : Z :=
  if is_ch c ["N";"n"] then 131 else if is_ch c ["U";"u"] then 132 else PlasmaInvalid.
(* control/constants.c:45-52 plasma_direct_const *)
Definition direct_const (c : Z) : Z :=
  if is_ch c ["F";"f"] then 391 else if is_ch c ["B";"b"] then 392 else PlasmaInvalid.
(* control/constants.c:61-74 plasma_norm_const *)
Definition norm_const (c : Z) : Z :=
  if is_ch c ["O";"o";"1"] then 171 else if is_ch c ["2"] then 173
  else if is_ch c ["F";"f";"E";"e"] then 174 else if is_ch c ["I";"i"] then 175
  else if is_ch c ["M";"m"] then 177 else PlasmaInvalid.
(* control/constants.c:81-89 plasma_side_const *)
Definition side_const (c : Z) : Z :=
  if is_ch c ["L";"l"] then 141 else if is_ch c ["R";"r"] then 142 else PlasmaInvalid.
(* control/constants.c:95-102 plasma_storev_const *)
Definition storev_const (c : Z) : Z :=
  if is_ch c ["C";"c"] then 401 else if is_ch c ["R";"r"] then 402 else PlasmaInvalid.
(* control/constants.c:109-117 plasma_trans_const *)
Definition trans_const (c : Z) : Z :=
  if is_ch c ["N";"n"] then 111 else if is_ch c ["T";"t"] then 112
  else if is_ch c ["C";"c"] then 113 else PlasmaInvalid.
(* control/constants.c:124-131 plasma_uplo_const *)
Definition uplo_const (c : Z) : Z :=
  if is_ch c ["U";"u"] then 121 else if is_ch c ["L";"l"] then 122 else 123.
(* control/constants.c:140-150 plasma_job_const *)
Definition job_const (c : Z) : Z :=
  if is_ch c ["A";"a"] then 305 else if is_ch c ["S";"s"] then 306
  else if is_ch c ["V";"v"] then 302 else if is_ch c ["N";"n"] then 301
  else if is_ch c ["I";"i"] then 304 else PlasmaInvalid.
(* control/constants.c:157-165 plasma_range_const *)
Definition range_const (c : Z) : Z :=
  if is_ch c ["A";"a"] then 351 else if is_ch c ["V";"v"] then 352
  else if is_ch c ["I";"i"] then 353 else PlasmaInvalid.

Open Scope string_scope.

(* include/plasma_core_blas.h:25-106 lapack_constants: [blank n] stands for n entries "".
   At line 94 there is no comma after "Rowwise", so C joins it with the "" that follows:
   that row contributes 9 blank entries and not 10. *)
Definition blank (n : nat) : list string := repeat "" n.
(* include/plasma_core_blas.h:25-106: the table *)
Definition lapack_constants : list string :=
  (blank 100 ++ blank 11 ++ ["NoTrans"; "Trans"; "ConjTrans"] ++
  blank 7 ++ ["Upper"; "Lower"; "General"] ++
  blank 7 ++ ["NonUnit"; "Unit"] ++
  blank 8 ++ ["Left"; "Right"] ++
  blank 28 ++ ["One"; ""; "Two"; "Frobenius"; "Infinity"; ""; "Maximum"; ""] ++
  blank 4 ++ blank 200 ++ blank 8 ++ ["Forward"; "Backward"] ++
  blank 8 ++ ["Columnwise"; append "Rowwise" ""] ++ blank 9 ++ blank 80 ++ blank 8 ++
  ["W"; "A2"; ""])%list.

(* C: the first character of a string literal, NUL for the empty one
   (include/plasma_core_blas.h:114-119) *)
Definition first_char (s : string) : Z :=
  match s with String a _ => ch a | EmptyString => 0 end.

(* include/plasma_core_blas.h:114-119 lapack_const *)
Definition lapack_const (c : Z) : Z :=
  let entries := Z.of_nat (List.length lapack_constants) in
  if ((c <? 0) || (entries <=? c))%Z then first_char (nth (Z.to_nat (entries - 1)%Z) lapack_constants "")
  else first_char (nth (Z.to_nat c) lapack_constants "").
