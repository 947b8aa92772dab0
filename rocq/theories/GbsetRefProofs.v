(* Calls of plasma_zgbset that miss elements outside of the band or change others. *)
From Coq Require Import ZArith List Bool Lia.
From Verif Require Import Base NumModel NumInstances TaskModel TaskSpec DescModel DescSpec MatModel MatSpec
  DriverModel DriverSpec GbsetModel GbsetSpec GbsetProofs.
Import ListNotations.
Open Scope Z_scope.

Definition ones : mem G_numbers := fun _ => (1, 0).

(* 2 x 2, diagonal, leading dimension 3: one call with 2 rows and 1 column at offset 1 *)
Lemma gbset_padded : exists nb m n kl ku lda (pA : loc) b (M : mem G_numbers),
  0 < nb /\ 0 <= kl < m /\ 0 <= ku < n /\ m <= lda /\ fst pA <> b /\
  ~ calls_ensure (zgbset nb m n kl ku pA lda b) M (fun M' =>
      forall i j, in_matrix m n i j -> off_band kl ku i j -> ul M' pA lda i j = n0) /\
  ~ calls_ensure (zgbset nb m n kl ku pA lda b) M (fun M' =>
      forall l, fst l <> b -> ~ in_user pA lda m n l -> M' l = M l).
Proof.
  exists 2, 2, 2, 0, 0, 3, (0, 0), 1, ones. repeat split; try lia; try discriminate.
  - intros H. unfold zgbset in H.
    apply (calls_possible (N := G_numbers) 2 1 (0, 0) ltac:(lia) ltac:(discriminate)) in H; [|apply calls_legal; lia].
    destruct H as (M' & HS & HQ). specialize (HQ 0 1). unfold in_matrix, off_band in HQ.
    specialize (HQ ltac:(lia) ltac:(lia)).
    destruct (HS (at_ (0, 0) 3 0 1) ltac:(discriminate)) as [_ H]. change (M' (at_ (0, 0) 3 0 1) = n0) in HQ. rewrite HQ in H.
    assert (E : n0 = ones (at_ (0, 0) 3 0 1)); [|discriminate E]. apply H. clear.
    intros R. apply hits_reach in R. destruct R as (_ & c & x & y & [<-|[]] & Hx & Hy & E). cbn in *. lia.
  - intros H. unfold zgbset in H.
    apply (calls_possible (N := G_numbers) 2 1 (0, 0) ltac:(lia) ltac:(discriminate)) in H; [|apply calls_legal; lia].
    destruct H as (M' & HS & HQ). specialize (HQ (0, 2) ltac:(discriminate)).
    destruct (HS (0, 2) ltac:(discriminate)) as [H _]. rewrite HQ in H.
    + assert (E : ones (0, 2) = n0); [|discriminate E]. apply H. apply hits_reach. split; [reflexivity|].
      eexists. exists 1, 0. split; [left; reflexivity|]. cbn. lia.
    + clear. intros (i & j & Hi & Hj & E). injection E as E. cbn in E. lia.
Qed.

(* 4 x 1 with three subdiagonals: nothing is outside of the band, but zeros are written to the
   offsets -4 and 0 *)
Lemma gbset_tall_wrong : exists nb m n kl ku lda (pA : loc) b (M : mem G_numbers),
  0 < nb /\ 0 <= kl < m /\ 0 <= ku < n /\ lda = m /\ fst pA <> b /\
  ~ calls_ensure (zgbset nb m n kl ku pA lda b) M (fun M' =>
      forall i j, in_matrix m n i j -> ~ off_band kl ku i j -> ul M' pA lda i j = ul M pA lda i j) /\
  ~ calls_ensure (zgbset nb m n kl ku pA lda b) M (fun M' =>
      forall l, fst l <> b -> ~ in_user pA lda m n l -> M' l = M l).
Proof.
  exists 2, 4, 1, 3, 0, 4, (0, 0), 1, ones. repeat split; try lia; try discriminate.
  - intros H. unfold zgbset in H.
    apply (calls_possible (N := G_numbers) 2 1 (0, 0) ltac:(lia) ltac:(discriminate)) in H; [|apply calls_legal; lia].
    destruct H as (M' & HS & HQ). specialize (HQ 0 0). unfold in_matrix, off_band in HQ.
    specialize (HQ ltac:(lia) ltac:(lia)).
    destruct (HS (at_ (0, 0) 4 0 0) ltac:(discriminate)) as [H _]. change (M' (at_ (0, 0) 4 0 0) = ones (at_ (0, 0) 4 0 0)) in HQ. rewrite HQ in H.
    assert (E : ones (at_ (0, 0) 4 0 0) = n0); [|discriminate E]. apply H. apply hits_reach. split; [reflexivity|].
    exists (Call 1 1 0 5), 0, 0. split; [vm_compute; tauto|]. cbn. lia.
  - intros H. unfold zgbset in H.
    apply (calls_possible (N := G_numbers) 2 1 (0, 0) ltac:(lia) ltac:(discriminate)) in H; [|apply calls_legal; lia].
    destruct H as (M' & HS & HQ). specialize (HQ (0, -4) ltac:(discriminate)).
    destruct (HS (0, -4) ltac:(discriminate)) as [H _]. rewrite HQ in H.
    + assert (E : ones (0, -4) = n0); [|discriminate E]. apply H. apply hits_reach. split; [reflexivity|].
      exists (Call 1 2 (-4) 5), 0, 0. split; [vm_compute; tauto|]. cbn. lia.
    + clear. intros (i & j & Hi & Hj & E). injection E as E. cbn in E. lia.
Qed.
