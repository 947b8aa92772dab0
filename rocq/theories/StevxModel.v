(* Eigenvalues of a symmetric tridiagonal matrix by bisection: compute/zlaneg2.c,
   compute/zlaebz2.c, compute/zstevx2.c. *)
From Coq Require Import ZArith QArith Qabs List Bool.
From Verif Require Import Base.
Import ListNotations.
Open Scope Z_scope.

(* include/plasma_types.h:99-108 *)
Definition PlasmaNoVec : Z := 301.
(* include/plasma_types.h:100 *)
Definition PlasmaVec : Z := 302.
(* include/plasma_types.h:101 *)
Definition PlasmaCount : Z := 303.
(* include/plasma_types.h:107 *)
Definition PlasmaRangeV : Z := 352.
(* include/plasma_types.h:108 *)
Definition PlasmaRangeI : Z := 353.

(* compute/zlaneg2.c:100 PHI *)
Definition phi : Q := (2 ^ 34)%Q.

(* a < b (compute/zlaneg2.c:105) *)
Definition qlt (a b : Q) : bool := negb (Qle_bool b a).

(* compute/zlaneg2.c:106-132, the loop from row i on; d, e: the diagonal and off-diagonal
   entries still to come. Rounding is left out (rational numbers); a division by 0 is 0. *)
Fixpoint sturm (d e : list Q) (u p0 p1 : Q) (isneg : Z) : Z :=
  match d, e with
  | di :: d', ei :: e' =>
      let v0 := Qabs p0 in
      let v1 := Qabs p1 in
      let w := if qlt v1 v0 then v0 else v1 in
      let q0 := Qred ((di - u) * p0 - (ei * ei) * p1)%Q in
      let q1 := p0 in
      let s := (if qlt phi w then Qred (phi / w)
                else if qlt w (/ phi) then Qred ((/ phi) / w) else 1)%Q in
      let r0 := Qred (q0 * s)%Q in
      let r1 := Qred (q1 * s)%Q in
      sturm d' e' u r0 r1
        (if (qlt r0 0 && Qle_bool 0 r1) || (Qle_bool 0 r0 && qlt r1 0) then isneg + 1 else isneg)
  | _, _ => isneg
  end.

(* compute/zlaneg2.c:95-135 plasma_zlaneg2; diag and offd are the arrays *)
Definition zlaneg2 (diag offd : list Q) (u : Q) : Z :=
  match diag with
  | [] => 0
  | d0 :: d =>
      let p0 := (d0 - u)%Q in
      sturm d offd u p0 1%Q (if qlt p0 0 then 1 else 0)
  end.

(* The parts of zlaebz2_Control_t that plasma_zlaebz2 reads
   (include/plasma_zlaebz2_work.h:41-58). *)
Record control := { c_range : Z; c_il : Z; c_iu : Z; c_base : Z }.

(* The arguments of plasma_zlaebz2, which are also the variables of its loop
   (compute/zlaebz2.c:216-217). *)
Record bracket := { b_lo : Z; b_hi : Z; b_nlo : Z; b_nhi : Z; b_nev : Z }.

(* A call of plasma_zlaebz2 in progress: not yet begun, at the head of its loop, or between
   the stores of the eigenvalue and of the multiplicity (compute/zlaebz2.c:216-371). *)
Inductive bisection :=
| Entering (b : bracket)
| Looping (b : bracket)
| Closing (b : bracket).

(* What one pass through the loop of compute/zlaebz2.c:253-337 ends with: leaving it, going
   on, or creating a task (for the first bracket) and going on. *)
Inductive iteration :=
| ItDone
| ItNext (b : bracket)
| ItSplit (right left : bracket).

Section Bisection.
  (* The machine numbers are numbered in increasing order: Z stands for them, x+1 for the
     machine number that follows x. count x is plasma_zlaneg2(diag, offd, N, x) and mid x y
     is (x+y)*0.5 (compute/zlaebz2.c:254, 265). *)
  Variable count : Z -> Z.
  Variable mid : Z -> Z -> Z.

  (* compute/zlaebz2.c:226-248: the part before the loop *)
  Definition enter (c : control) (b : bracket) : option bracket :=
    let nlo := if b_nlo b <? 0 then count (b_lo b) else b_nlo b in
    let nhi := if b_nhi b <? 0 then count (b_hi b) else b_nhi b in
    let nev := if (b_nlo b <? 0) || (b_nhi b <? 0) then nhi - nlo else b_nev b in
    if nev <? 1 then None
    else if (c_range c =? PlasmaRangeI) && ((nhi <? c_il c) || (c_iu c <? nlo)) then None
    else Some {| b_lo := b_lo b; b_hi := b_hi b; b_nlo := nlo; b_nhi := nhi; b_nev := nev |}.

  (* compute/zlaebz2.c:253-337: one pass through the loop *)
  Definition iterate (c : control) (b : bracket) : iteration :=
    let cp := mid (b_lo b) (b_hi b) in
    if (cp =? b_lo b) || (cp =? b_hi b) then ItDone
    else
      let e := count cp in
      if e <? 0 then ItDone
      else if e =? b_nhi b then
        ItNext {| b_lo := b_lo b; b_hi := cp; b_nlo := b_nlo b; b_nhi := b_nhi b; b_nev := b_nev b |}
      else if e =? b_nlo b then
        ItNext {| b_lo := cp; b_hi := b_hi b; b_nlo := b_nlo b; b_nhi := b_nhi b; b_nev := b_nev b |}
      else if (c_range c =? PlasmaRangeI) && (e <? c_il c) then
        ItNext {| b_lo := cp; b_hi := b_hi b; b_nlo := e; b_nhi := b_nhi b; b_nev := b_nhi b - e |}
      else if (c_range c =? PlasmaRangeI) && (c_iu c <=? e) then
        ItNext {| b_lo := b_lo b; b_hi := cp; b_nlo := b_nlo b; b_nhi := e; b_nev := e - b_nlo b |}
      else
        ItSplit {| b_lo := cp; b_hi := b_hi b; b_nlo := e; b_nhi := b_nhi b; b_nev := b_nhi b - e |}
                {| b_lo := b_lo b; b_hi := cp; b_nlo := b_nlo b; b_nhi := e; b_nev := e - b_nlo b |}.

  (* compute/zlaebz2.c:346-351 myIdx *)
  Definition my_idx (c : control) (b : bracket) : Z :=
    if c_range c =? PlasmaRangeI then b_nlo b - (c_il c - 1) else b_nlo b - c_base c.

  (* The calls in progress, the arrays pVal and pMul, and whether something has been stored
     outside of them (compute/zlaebz2.c:366-367). The eigenvectors (lines 353-363) are not
     modelled. *)
  Record state := { s_calls : list bisection; s_val : Z -> Z; s_mul : Z -> Z; s_outside : bool }.

  (* assignment to an element of an array (compute/zlaebz2.c:366-367) *)
  Definition put (f : Z -> Z) (i v : Z) : Z -> Z := fun j => if j =? i then v else f j.

  (* an index is outside of an array of k elements (compute/zlaebz2.c:366-367) *)
  Definition outside (k i : Z) : bool := (i <? 0) || (k <=? i).

  (* One step of a call: the calls it leaves behind and its effect on the arrays, which have
     k elements (compute/zlaebz2.c:216-371). *)
  Definition call_step (c : control) (k : Z) (t : bisection) (s : state) : list bisection * state :=
    match t with
    | Entering b =>
        (match enter c b with None => [] | Some b' => [Looping b'] end, s)
    | Looping b =>
        match iterate c b with
        | ItDone =>
            ([Closing b],
             {| s_calls := s_calls s; s_val := put (s_val s) (my_idx c b) (b_lo b); s_mul := s_mul s;
                s_outside := s_outside s || outside k (my_idx c b) |})
        | ItNext b' => ([Looping b'], s)
        | ItSplit r l => ([Entering r; Looping l], s)
        end
    | Closing b =>
        ([],
         {| s_calls := s_calls s; s_val := s_val s; s_mul := put (s_mul s) (my_idx c b) (b_nev b);
            s_outside := s_outside s || outside k (my_idx c b) |})
    end.

  (* A step of the whole: some call in progress goes one step further (the tasks of
     compute/zlaebz2.c:327-328 have no dependences). *)
  Inductive bstep (c : control) (k : Z) : state -> state -> Prop :=
  | bs_call l1 t l2 s : s_calls s = l1 ++ t :: l2 ->
      bstep c k s
        {| s_calls := l1 ++ fst (call_step c k t s) ++ l2;
           s_val := s_val (snd (call_step c k t s));
           s_mul := s_mul (snd (call_step c k t s));
           s_outside := s_outside (snd (call_step c k t s)) |}.

  (* compute/zstevx2.c:169-174: the loop for the minimum, with the bounds it ends with. The
     number of passes is bounded by fuel. *)
  Fixpoint stelg_min (fuel : nat) (n lo hi : Z) : Z * Z :=
    match fuel with
    | O => (lo, hi)
    | S fuel' =>
        let cp := mid lo hi in
        if (cp =? lo) || (cp =? hi) then (lo, hi)
        else if count cp =? n then stelg_min fuel' n cp hi else stelg_min fuel' n lo cp
    end.

  (* compute/zstevx2.c:177-185: the loop for the maximum *)
  Fixpoint stelg_max (fuel : nat) (n lo hi : Z) : Z * Z :=
    match fuel with
    | O => (lo, hi)
    | S fuel' =>
        let cp := mid lo hi in
        if (cp =? lo) || (cp =? hi) then (lo, hi)
        else if count cp =? n then stelg_max fuel' n lo cp else stelg_max fuel' n cp hi
    end.

  (* compute/zstevx2.c:143-189 plasma_zstelg; gmin and gmax are the Gerschgorin bounds of
     lines 146-164 *)
  Definition zstelg (n gmin gmax : Z) : Z * Z :=
    let fuel := Z.to_nat (gmax - gmin + 1) in
    (fst (stelg_min fuel n gmin gmax), snd (stelg_max fuel n gmin gmax)).

  (* What plasma_zstevx2 does after its checks: return a code, return a number of eigenvalues
     (PlasmaCount), or start the bisection with this call and this number of eigenvalues
     (compute/zstevx2.c:256-408) *)
  Inductive stevx :=
  | SxReturns (code : Z)
  | SxCount (found : Z)
  | SxRuns (c : control) (root : bracket) (nev : Z).

  (* compute/zstevx2.c:256-408: plasma_zstevx2 up to the bisection. Pointers are not NULL. *)
  Definition zstevx2 (jobtype range n k gmin gmax vl vu il iu : Z) : stevx :=
    if negb ((jobtype =? PlasmaVec) || (jobtype =? PlasmaNoVec) || (jobtype =? PlasmaCount)) then SxReturns (-1)
    else if negb ((range =? PlasmaRangeV) || (range =? PlasmaRangeI)) then SxReturns (-2)
    else if n <? 0 then SxReturns (-3)
    else if (range =? PlasmaRangeV) && (vu <=? vl) then SxReturns (-7)
    else if (range =? PlasmaRangeI) && ((il <? 1) || (Z.max 1 n <? il)) then SxReturns (-9)
    else if (range =? PlasmaRangeI) && ((iu <? Z.min n il) || (n <? iu)) then SxReturns (-10)
    else if n =? 0 then SxCount 0
    else
      let gMin := fst (zstelg n gmin gmax) in
      let gMax := snd (zstelg n gmin gmax) in
      let below_vl := if (range =? PlasmaRangeV) && (gMin <=? vl) then count vl else 0 in
      let below_vu := if (range =? PlasmaRangeV) && (vu <=? gMax) then count vu else n in
      let vl' := if (range =? PlasmaRangeV) && (gMin <=? vl) then vl else gMin in
      let vu' := if (range =? PlasmaRangeV) && (vu <=? gMax) then vu else gMax + 1 in
      let nev := if range =? PlasmaRangeV then below_vu - below_vl else iu + 1 - il in
      let base := if range =? PlasmaRangeV then below_vl else 0 in
      if jobtype =? PlasmaCount then SxCount nev
      else if k <? nev then SxReturns (-4)
      else
        SxRuns {| c_range := range; c_il := il; c_iu := iu; c_base := base |}
               {| b_lo := vl'; b_hi := vu'; b_nlo := -1; b_nhi := -1; b_nev := nev |} nev.

  (* compute/zstevx2.c:415-419 *)
  Definition vectors_found (nev : Z) (mul : Z -> Z) : Z :=
    fold_left (fun v i => if 0 <? mul i then v + 1 else v) (zrange 0 nev) 0.

  (* compute/zstevx2.c:427-441: the state is j and the arrays *)
  Definition compress (nev : Z) (val mul : Z -> Z) : Z * (Z -> Z) * (Z -> Z) :=
    fold_left (fun s i =>
      let '(j, v, m) := s in
      if 0 <? m i then (j + 1, put v j (v i), put m j (m i)) else s)
      (zrange 0 nev) (0, val, mul).

  (* compute/zstevx2.c:410-525: what is returned once the bisection is over: *pFound, pVal
     and pMul. None: undefined behaviour (stein_arrays, which line 516 reads, is NULL
     unless jobtype is PlasmaVec, line 324). The orthogonalization of the eigenvectors
     (lines 443-511) does not change these results. *)
  Definition finish (jobtype nev : Z) (val mul : Z -> Z) : option (Z * (Z -> Z) * (Z -> Z)) :=
    let found := vectors_found nev mul in
    let '(v, m) := if found <? nev then (snd (fst (compress nev val mul)), snd (compress nev val mul))
                   else (val, mul) in
    if jobtype =? PlasmaVec then Some (found, v, m) else None.
End Bisection.
