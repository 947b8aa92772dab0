(* control/tree.c: the order of kernels in tree-based QR and LQ. *)
From Coq Require Import ZArith List Bool.
From Verif Require Import Base DescModel.
Import ListNotations.
Open Scope Z_scope.

(* include/plasma_tree.h:13-17 *)
Definition PlasmaGeKernel : Z := 1.
(* include/plasma_tree.h:13-17 *)
Definition PlasmaTtKernel : Z := 2.
(* include/plasma_tree.h:13-17 *)
Definition PlasmaTsKernel : Z := 3.

(* four consecutive ints of the operations array, include/plasma_tree.h:40-43 *)
Record top := mktop { t_kernel : Z; t_col : Z; t_row : Z; t_piv : Z }.

(* What a generator does: it ends, with the operations and the last code given to
   plasma_request_fail (0 if none); or an assertion stops the program; or a while loop has
   run longer than the fuel (the theorems show that there is always enough).
   (include/plasma_tree.h:33-49, control/tree.c:48-200) *)
Inductive tree_out :=
| TreeDone (ops : list top) (code : Z)
| TreeAbort
| TreeFuel.

(* include/plasma_tree.h:33-49 plasma_tree_insert_operation: None when assert fires. ind_op is the
   length of the list, as all callers start from 0 and pass on the returned index. *)
Definition insert_operation (lops : Z) (ops : list top) (kernel col row rowpiv : Z) : option (list top) :=
  if Z.of_nat (length ops) <? lops then Some (ops ++ [mktop kernel col row rowpiv]) else None.

(* a loop whose body may stop at an assertion (any for loop of control/tree.c)
   (e.g. control/tree.c:61-67) *)
Fixpoint for_each {A B} (body : A -> B -> option A) (l : list B) (s : A) : option A :=
  match l with
  | [] => Some s
  | x :: r => match body s x with Some s' => for_each body r s' | None => None end
  end.

(* control/tree.c:48-50 get_super_tiles (n >= 0, bs > 0) *)
Definition get_super_tiles (n bs : Z) : Z := (n + (bs - 1)) / bs.

(* control/tree.c:52-69 plasma_tree_insert_flat_tree *)
Definition insert_flat_tree (lops : Z) (ops : list top) (j k bs : Z) : option (list top) :=
  match insert_operation lops ops PlasmaGeKernel j k (-1) with
  | None => None
  | Some ops =>
      for_each (fun ops m => insert_operation lops ops PlasmaTsKernel j m k) (zrange (k + 1) (k + bs)) ops
  end.

(* control/tree.c:135-184 plasma_tree_flat_ts *)
Definition tree_flat_ts (mt nt : Z) : tree_out :=
  let minnt := Z.min mt nt in
  let lops := minnt + (mt * minnt - (minnt + 1) * minnt / 2) in
  match for_each (fun ops k =>
          match insert_operation lops ops PlasmaGeKernel k k (-1) with
          | None => None
          | Some ops => for_each (fun ops m => insert_operation lops ops PlasmaTsKernel k m k)
                          (zrange (k + 1) mt) ops
          end) (zrange 0 minnt) [] with
  | None => TreeAbort
  | Some ops => TreeDone ops (if Z.of_nat (length ops) =? lops then 0 else PlasmaErrorIllegalValue)
  end.

(* control/tree.c:191-243 plasma_tree_flat_tt *)
Definition tree_flat_tt (mt nt : Z) : tree_out :=
  let minnt := Z.min mt nt in
  let lops := (mt * minnt - (minnt - 1) * minnt / 2) + (mt * minnt - (minnt + 1) * minnt / 2) in
  match for_each (fun ops k =>
          match for_each (fun ops m => insert_operation lops ops PlasmaGeKernel k m (-1))
                  (zrange k mt) ops with
          | None => None
          | Some ops => for_each (fun ops m => insert_operation lops ops PlasmaTtKernel k m k)
                          (zrange (k + 1) mt) ops
          end) (zrange 0 minnt) [] with
  | None => TreeAbort
  | Some ops => TreeDone ops (if Z.of_nat (length ops) =? lops then 0 else PlasmaErrorIllegalValue)
  end.

(* the values taken by a loop variable in for (x = a; x < b; x += s), s > 0 (e.g. control/tree.c:281) *)
Definition zstep (a b s : Z) : list Z := map (fun i => a + i * s) (zrange 0 ((b - a + s - 1) / s)).

(* the values of rd in for (rd = r; rd < b; rd *= 2), r > 0 (control/tree.c:295); the fuel b
   is enough since rd at least grows by one *)
Fixpoint doublings (fuel : nat) (r b : Z) : list Z :=
  match fuel with
  | O => []
  | S f => if r <? b then r :: doublings f (r * 2) b else []
  end.

(* control/tree.c:253-314 plasma_tree_binary *)
Definition tree_binary (mt nt : Z) : tree_out :=
  let BS := 4 in
  let minnt := Z.min mt nt in
  let lops := (mt / BS + 1) * minnt + (mt * minnt - (minnt + 1) * minnt / 2) in
  match for_each (fun ops k =>
          match for_each (fun ops M =>
                  match insert_operation lops ops PlasmaGeKernel k M (-1) with
                  | None => None
                  | Some ops => for_each (fun ops m => insert_operation lops ops PlasmaTsKernel k m M)
                                  (zrange (M + 1) (Z.min (M + BS) mt)) ops
                  end) (zstep k mt BS) ops with
          | None => None
          | Some ops =>
              for_each (fun ops rd =>
                for_each (fun ops M => insert_operation lops ops PlasmaTtKernel k (M + rd) M)
                  (zstep k (mt - rd) (2 * rd)) ops)
                (doublings (Z.to_nat (mt - k)) BS (mt - k)) ops
          end) (zrange 0 minnt) [] with
  | None => TreeAbort
  | Some ops => TreeDone ops (if lops <? Z.of_nat (length ops) then PlasmaErrorIllegalValue else 0)
  end.

(* control/tree.c:382-401: while (nZ < nZ_target) of plasma_tree_auto, one column *)
Fixpoint auto_while (fuel : nat) (lops j bs nT nZ_target nZ : Z) (ops : list top) : option (option (list top)) :=
  match fuel with
  | O => None
  | S f =>
      if nZ <? nZ_target then
        let batch := (nT - nZ) / 2 in
        let nZnew := nZ + batch in
        match for_each (fun ops ks =>
                let pmkk := j + (nZ_target - ks) * bs in
                let pivpmkk := pmkk - batch * bs in
                insert_operation lops ops PlasmaTtKernel j pmkk pivpmkk) (zrange nZ nZnew) ops with
        | None => Some None
        | Some ops => auto_while f lops j bs nT nZ_target nZnew ops
        end
      else Some (Some ops)
  end.

(* control/tree.c:358-402: the loop over the columns of plasma_tree_auto *)
Fixpoint auto_cols (fuel : nat) (lops mt minnt concurrency : Z) (js : list Z) (ops : list top)
    : option (option (list top)) :=
  match js with
  | [] => Some (Some ops)
  | j :: r =>
      let bs := Z.max 1 ((mt - j - 1) * (minnt - j - 1) / (2 * concurrency)) in
      let nT := get_super_tiles (Z.max 0 (mt - j)) bs in
      match for_each (fun ops ks =>
              let k := j + (nT - ks - 1) * bs in
              insert_flat_tree lops ops j k (Z.min bs (mt - k))) (zrange 0 nT) ops with
      | None => Some None
      | Some ops =>
          let nZ_target := get_super_tiles (Z.max 0 (mt - j - bs)) bs in
          match auto_while fuel lops j bs nT nZ_target 0 ops with
          | Some (Some ops) => auto_cols fuel lops mt minnt concurrency r ops
          | x => x
          end
      end
  end.

(* control/tree.c:323-412 plasma_tree_auto (concurrency >= 1, gamma = 2) *)
Definition tree_auto (fuel : nat) (mt nt concurrency : Z) : tree_out :=
  let minnt := Z.min mt nt in
  let lops := (mt * minnt - (minnt - 1) * minnt / 2) + (mt * minnt - (minnt + 1) * minnt / 2) in
  match auto_cols fuel lops mt minnt concurrency (zrange 0 minnt) [] with
  | None => TreeFuel
  | Some None => TreeAbort
  | Some (Some ops) => TreeDone ops (if lops <? Z.of_nat (length ops) then PlasmaErrorIllegalValue else 0)
  end.

(* the arrays NT and NZ and the other variables of the greedy loops, control/tree.c:443-466,
   580-607 *)
Record gstate := mkgs { g_NT : Z -> Z; g_NZ : Z -> Z; g_ops : list top; g_upd : bool }.

(* a[j] = v, control/tree.c:513-514, 666-667 *)
Definition aset (a : Z -> Z) (j v : Z) : Z -> Z := fun x => if x =? j then v else a x.

(* control/tree.c:471-514: body of the loop over the columns in plasma_tree_greedy *)
Definition greedy_column (lops mt : Z) (s : gstate) (j : Z) : option gstate :=
  let NT := g_NT s in
  let NZ := g_NZ s in
  let nTnew := if j =? 0 then NT j + (mt - NT j) else NZ (j - 1) in
  match (if j =? 0 then
           if 0 <? mt - NT j then
             for_each (fun ops k => insert_operation lops ops PlasmaGeKernel j k (-1))
               (rev (zrange 0 mt)) (g_ops s)
           else Some (g_ops s)
         else
           for_each (fun ops k => insert_operation lops ops PlasmaGeKernel j (mt - k - 1) (-1))
             (zrange (NT j) nTnew) (g_ops s)) with
  | None => None
  | Some ops =>
      let batch := (NT j - NZ j) / 2 in
      let nZnew := NZ j + batch in
      match for_each (fun ops kk =>
              let pmkk := mt - kk - 1 in
              let pivpmkk := pmkk - batch in
              insert_operation lops ops PlasmaTtKernel j pmkk pivpmkk) (zrange (NZ j) nZnew) ops with
      | None => None
      | Some ops => Some (mkgs (aset NT j nTnew) (aset NZ j nZnew) ops (g_upd s))
      end
  end.

(* control/tree.c:468-516: the while loop of plasma_tree_greedy *)
Fixpoint greedy_while (fuel : nat) (lops mt minnt : Z) (s : gstate) : option (option gstate) :=
  match fuel with
  | O => None
  | S f =>
      if (g_NT s (minnt - 1) <? mt - minnt + 1) || (g_NZ s (minnt - 1) <? mt - minnt) then
        match for_each (greedy_column lops mt) (rev (zrange 0 minnt)) s with
        | None => Some None
        | Some s => greedy_while f lops mt minnt s
        end
      else Some (Some s)
  end.

(* control/tree.c:420-530 plasma_tree_greedy (mt, nt >= 1) *)
Definition tree_greedy (fuel : nat) (mt nt : Z) : tree_out :=
  let minnt := Z.min mt nt in
  let lops := (mt * minnt - (minnt - 1) * minnt / 2) + (mt * minnt - (minnt + 1) * minnt / 2) in
  match greedy_while fuel lops mt minnt (mkgs (fun _ => 0) (fun _ => 0) [] false) with
  | None => TreeFuel
  | Some None => TreeAbort
  | Some (Some s) =>
      TreeDone (g_ops s) (if Z.of_nat (length (g_ops s)) =? lops then 0 else PlasmaErrorIllegalValue)
  end.

(* control/tree.c:609-667: body of the loop over the columns in plasma_tree_block_greedy. The C
   operator % agrees with mod since mt - (j-1) >= 0. *)
Definition block_column (lops mt bs : Z) (s : gstate) (j : Z) : option gstate :=
  let NT := g_NT s in
  let NZ := g_NZ s in
  let nTnew :=
    if j =? 0 then NT j + (get_super_tiles mt bs - NT j)
    else if negb ((mt - (j - 1)) mod bs =? 1) && (1 <? bs) && (NZ (j - 1) <? NT (j - 1))
         then NZ (j - 1) + 1 else NZ (j - 1) in
  match (if j =? 0 then
           if 0 <? get_super_tiles mt bs - NT j then
             for_each (fun ops k =>
               let itile := j + k * bs in
               insert_flat_tree lops ops j itile (Z.min bs (mt - itile)))
               (rev (zrange 0 (get_super_tiles mt bs))) (g_ops s)
           else Some (g_ops s)
         else
           for_each (fun ops k =>
             let kk := get_super_tiles (mt - j) bs - k - 1 in
             let itile := j + kk * bs in
             insert_flat_tree lops ops j itile (Z.min bs (mt - itile)))
             (zrange (NT j) nTnew) (g_ops s)) with
  | None => None
  | Some ops =>
      let batch := (NT j - NZ j) / 2 in
      let nZnew := NZ j + batch in
      match for_each (fun ops kk =>
              let pmkk := get_super_tiles (mt - j) bs - kk - 1 in
              let pivpmkk := pmkk - batch in
              insert_operation lops ops PlasmaTtKernel j (j + pmkk * bs) (j + pivpmkk * bs))
              (zrange (NZ j) nZnew) ops with
      | None => None
      | Some ops =>
          let updated := negb (nTnew =? NT j) || negb (nZnew =? NZ j) || g_upd s in
          Some (mkgs (aset NT j nTnew) (aset NZ j nZnew) ops updated)
      end
  end.

(* control/tree.c:605-674: the while loop of plasma_tree_block_greedy; it is left with a message
   when a sweep over the columns changes nothing *)
Fixpoint block_while (fuel : nat) (lops mt minnt bs : Z) (s : gstate) : option (option gstate) :=
  match fuel with
  | O => None
  | S f =>
      if (g_NT s (minnt - 1) <? get_super_tiles (mt - minnt + 1) bs)
         || (g_NZ s (minnt - 1) <? get_super_tiles (mt - minnt + 1) bs - 1) then
        match for_each (block_column lops mt bs) (rev (zrange 0 minnt))
                (mkgs (g_NT s) (g_NZ s) (g_ops s) false) with
        | None => Some None
        | Some s => if negb (g_upd s) then Some (Some s) else block_while f lops mt minnt bs s
        end
      else Some (Some s)
  end.

(* control/tree.c:557-561: the block size, gamma = 4. (32-bit overflow of the product, possible from
   about 1626 tile rows and columns on, is not modelled; the proofs only use that the result
   lies between 1 and mt.) *)
Definition block_size (mt minnt concurrency : Z) : Z :=
  Z.min mt (Z.max 1 (mt * (minnt * minnt / 2 + minnt / 2) / (4 * concurrency))).

(* control/tree.c:539-688 plasma_tree_block_greedy for a given block size (mt, nt >= 1) *)
Definition tree_block_greedy_bs (fuel : nat) (mt nt bs : Z) : tree_out :=
  let minnt := Z.min mt nt in
  let lops := (mt * minnt - minnt * (minnt - 1) / 2) + (mt * minnt - (minnt + 1) * minnt / 2) in
  match block_while fuel lops mt minnt bs (mkgs (fun _ => 0) (fun _ => 0) [] false) with
  | None => TreeFuel
  | Some None => TreeAbort
  | Some (Some s) =>
      TreeDone (g_ops s) (if lops <? Z.of_nat (length (g_ops s)) then PlasmaErrorIllegalValue else 0)
  end.

(* control/tree.c:539-688 plasma_tree_block_greedy (mt, nt, concurrency >= 1) *)
Definition tree_block_greedy (fuel : nat) (mt nt concurrency : Z) : tree_out :=
  tree_block_greedy_bs fuel mt nt (block_size mt (Z.min mt nt) concurrency).

(* control/tree.c:76-126 plasma_tree_operations: tree_type is the constant PlasmaTreeBlockGreedy,
   ncores is omp_get_num_threads() *)
Definition tree_operations (fuel : nat) (mt nt ncores : Z) : tree_out := tree_block_greedy fuel mt nt ncores.
