(* plasma_zcposv: the whole call for matrices of one tile. *)
From Coq Require Import ZArith List Bool Lia.
From Verif Require Import Base NumModel NumProofs FieldModel TaskModel TaskSpec GuardModel GuardSpec DescModel DescSpec DescDriverModel DescProofs4
  MatModel MatSpec GemmProofs DriverModel DriverSpec PotrfModel PotrfSpec NormModel NormSpec NormProofs NormTriModel NormTriProofs
  LayoutModel RefineTaskModel RefineTaskSpec RefineTaskProofs4 RefineTaskProofs5
  MatProofs RegionProofs GuardProofs GuardProofs2 OpProofs PotrfGenProofs PosvModel PosvProofs InvDriverProofs PotrfDriverProofs.
Import ListNotations.
Open Scope Z_scope.

(* a task that is right for every further choice of start addresses touches declared tiles only *)
Lemma kdecl_all : forall V (env : list (Z * (Z -> Z -> Prop))) (k : ktask V),
  (forall x h, kdecl (home_env ((x, h) :: env)) k) ->
  forall l, k_reads k l -> exists d, In d (k_deps k) /\ home_env env l (dep_addr d).
Proof.
  intros V env k HK l HL.
  pose (K := fold_right Z.max 0 (map (fun d => snd (dep_addr d)) (k_deps k)) + 1).
  assert (HM : forall d, In d (k_deps k) -> snd (dep_addr d) < K).
  { intros d Hd. unfold K. clear -Hd. induction (k_deps k) as [|d' ds IH]; [destruct Hd|]. cbn [map fold_right].
    destruct Hd as [->|Hd]; [lia|]. pose proof (IH Hd). lia. }
  destruct (HK (fst l) (fun _ a => a = K)) as [HR _].
  destruct (HR l HL) as (d & D1 & D2 & h & D3 & D4).
  { exists (fst l, K). split; [reflexivity|]. exists (fun _ a => a = K). split; [left; reflexivity|reflexivity]. }
  exists d. split; [exact D1|]. destruct D3 as [D3|D3].
  - injection D3 as <-. specialize (HM d D1). cbv beta in D4. lia.
  - split; [exact D2|]. exists h. split; assumption.
Qed.

(* the routines for double precision are such tasks *)
Section Single.
  Context {V : Type}.
  Variables (bS : Z) (A : desc) (bXs : Z) (X : desc).
  Lemma single_of_kdecl : forall b D (ks : list (cktask V)), In (b, D) [(bS, A); (bXs, X)] -> bS <> bXs ->
    Forall kgood (map ck_task ks) -> Forall cksound ks ->
    (forall env, In (bS, homeD A (in_tiles A)) env -> In (bXs, homeD X (in_tiles X)) env ->
       Forall (kdecl (home_env env)) (map ck_task ks)) ->
    (forall k l, In k ks -> k_writes (ck_task k) l -> fst l = b) ->
    Forall (single_task bS A bXs X b D) ks.
  Proof.
    intros b D ks HbD NE KG KS KD KW. apply Forall_forall. intros k Hk.
    pose (base := [(bS, homeD A (in_tiles A)); (bXs, homeD X (in_tiles X))]).
    assert (KB : forall env, incl base env -> kdecl (home_env env) (ck_task k)).
    { intros env HI. assert (K : Forall (kdecl (home_env env)) (map ck_task ks)) by (apply KD; apply HI; cbn; tauto).
      rewrite Forall_forall in K. apply K. apply in_map. exact Hk. }
    assert (TI : forall b' D' l a, homeD D' (in_tiles D') (snd l) (snd a) -> fst a = fst l -> fst l = b' -> in_tile_at b' D' l a).
    { intros b' D' [lb lo] [ab ao] (m & n & r & c & Hmn & Hr & Hc & Eo & Ea) E1 E2. cbn [fst snd] in *. subst.
      exists m, n. destruct Hmn as [Hm Hn]. split; [exact Hm|]. split; [exact Hn|]. split; [reflexivity|].
      exists r, c. split; [exact Hr|]. split; [exact Hc|]. split; [reflexivity|]. reflexivity. }
    rewrite Forall_forall in KG, KS. pose proof (KG _ (in_map ck_task _ _ Hk)) as [[G1 G2] G3 G4]. destruct (KS k Hk) as [S1 S2].
    constructor.
    - intros l HL.
      destruct (kdecl_all V base (ck_task k) ltac:(intros x h; apply KB; intros y Hy; right; exact Hy) l HL) as (d & D1 & D2 & h & D3 & D4).
      exists d. split; [exact D1|]. destruct D3 as [D3|[D3|[]]]; injection D3 as E <-; [left|right]; apply TI; auto.
    - intros l HL. destruct (KB base (incl_refl _)) as [_ W]. destruct (W l HL) as (d & D1 & (D2 & h & D3 & D4) & D5).
      exists d. split; [exact D1|]. split; [|exact D5]. pose proof (KW k l Hk HL) as EB.
      apply TI; [|exact D2|exact EB].
      destruct HbD as [E|[E|[]]]; injection E as E1 E2; subst b D; destruct D3 as [D3|[D3|[]]]; injection D3 as E <-; try exact D4; exfalso; congruence.
    - destruct G3 as [L HL]. destruct G4 as [L' HL']. exists L, L'. split; assumption.
    - exact G1.
    - intros M M' E. split; [apply S1; exact E|]. intros l W. apply G2; assumption.
    - exact S2.
  Qed.
End Single.

Section Call.
  Context {N : normed}.

  Lemma zcposv_one : forall (lassq : list N -> N * N -> N * N) (nsqrt : N -> N) (narrow widen : N -> N) (fits : N -> bool)
      (R : roots N) (rp : N -> N) (eps : N) (sqrt_n : Z -> N)
      (factor_s solve_s : Z -> Z -> desc -> Z -> desc -> list (cktask N))
      nb uplo n nrhs pA lda pB ldb pX ldx bA bB bX bR bS bXs bW bN (S : Z -> Z -> N) (M : mem N),
    (forall x : N, nconj x = x -> rp x = x) ->
    valid_uplo uplo -> 0 < n <= nb -> 0 < nrhs <= nb -> n <= lda -> n <= ldb -> n <= ldx ->
    NoDup [bA; bB; bX; bR; bW; bN; bS; bXs] ->
    (forall p, In p [pA; pB; pX] -> ~ In (fst p) [bA; bB; bX; bR; bW; bN; bS; bXs]) ->
    (forall A X, ge_create nb n n = CrOk A (n * n) -> ge_create nb n nrhs = CrOk X (n * nrhs) ->
       Forall (single_task bS A bXs X bS A) (factor_s uplo bS A bXs X) /\
       Forall (single_task bS A bXs X bXs X) (solve_s uplo bS A bXs X)) ->
    is_hermitian M uplo pA lda n S ->
    xdriver_ensures (zcposv lassq nsqrt narrow widen fits R rp (fun z => nabs (nre z)) eps sqrt_n factor_s solve_s
        nb uplo n nrhs pA lda pB ldb pX ldx bA bB bX bR bS bXs bW bN) M
      (fun iter M' st =>
        (st = 0 ->
          ((exists k anorm, iter = Some k /\ 0 <= k <= 30 /\ is_norm nsqrt PlasmaInfNorm n n (herm uplo (ul M pA lda)) anorm /\
              accepted n nrhs S (ul M pB ldb) (ul M' pX ldx) (nmul (nmul anorm eps) (sqrt_n n))) \/
           (iter = Some (-31) /\ forall i j, in_matrix n nrhs i j ->
              nsum (fun l => nmul (S i l) (ul M' pX ldx l j)) 0 n = ul M pB ldb i j)) /\
          (forall i j, in_matrix n n i j -> fits (ul M pA lda i j) = true) /\
          (forall i j, in_matrix n nrhs i j -> fits (ul M pB ldb i j) = true)) /\
        (forall l, ~ In (fst l) [bA; bB; bX; bR; bW; bN; bS; bXs] -> ~ in_user pX ldx n nrhs l -> M' l = M l)).
  Proof.
    intros lassq nsqrt narrow widen fits R rp eps sqrt_n factor_s solve_s nb uplo n nrhs pA lda pB ldb pX ldx bA bB bX bR bS bXs bW bN S M
      Hrp Hu Hn Hr LA LB LX ND FU HSi [HS HH].
    unfold zcposv.
    replace ((uplo =? PlasmaUpper) || (uplo =? PlasmaLower)) with true by (destruct Hu as [-> | ->]; reflexivity). cbn [negb].
    replace (n <? 0) with false by (symmetry; apply Z.ltb_ge; lia).
    replace (nrhs <? 0) with false by (symmetry; apply Z.ltb_ge; lia).
    replace (lda <? Z.max 1 n) with false by (symmetry; apply Z.ltb_ge; lia).
    replace (ldb <? Z.max 1 n) with false by (symmetry; apply Z.ltb_ge; lia).
    replace (ldx <? Z.max 1 n) with false by (symmetry; apply Z.ltb_ge; lia).
    replace (Z.min n nrhs =? 0) with false by (symmetry; apply Z.eqb_neq; lia).
    destruct (ge_create_succeeds nb n n) as (A & EA & _); [lia..|].
    destruct (ge_create_succeeds nb n nrhs) as (X & EX & _); [lia..|].
    rewrite EA, EX. cbn [with_xdesc xdriver_ensures].
    destruct (ge_create_dn nb n n A _ EA) as (HA & Am & An & _).
    destruct (ge_create_dn nb n nrhs X _ EX) as (HX & Xm & Xn & _).
    destruct (HSi A X EA EX) as [HF HSo]. clear HSi.
    pose proof (FU pA (or_introl eq_refl)) as FA. pose proof (FU pB (or_intror (or_introl eq_refl))) as FB.
    pose proof (FU pX (or_intror (or_intror (or_introl eq_refl)))) as FX. clear FU.
    assert (AS : d_m A = d_n A) by congruence. assert (AX : d_n A = d_m X) by congruence. clear Am An EA EX.
    subst n nrhs.
    apply (one_tile lassq nsqrt narrow widen fits R rp (fun z => nabs (nre z)) Hrp (fun z => isabs_abs (nre z)) nb A X uplo bA bB bX bR bW bN bS bXs
      pA lda pB ldb HA HX) with (S := S); try assumption.
    { intros i j H. apply HH. destruct H; split; assumption. }
    intros iter M' st H1 H2. split; [|exact H2]. intros E0. destruct (H1 E0) as (H3 & H4 & H5).
    split; [|split; [exact H4|intros i j [Hi Hj]; apply H5; assumption]].
    destruct H3 as [(anorm & V1 & V2 & V3)|[V1 V2]].
    - left. exists iter, anorm. split; [reflexivity|]. split; [exact V2|]. split; [|exact V3].
      right; right; left. split; [reflexivity|]. eapply largest_ext; [|exact V1]. intros i Hi. cbn beta. apply nsum_ext. intros j Hj.
      unfold gs, herm. change (NormSpec.in_triangle uplo i j) with (NormTriProofs.stored uplo i j). symmetry.
      destruct (Z.eqb_spec i j) as [->|NE]; [reflexivity|]. destruct (NormTriProofs.stored uplo i j); [reflexivity|apply nabs_conj].
    - right. split; [rewrite V1; reflexivity|]. exact V2.
  Qed.

  (* Cholesky factorization and solution of double precision, used for As and Xs *)
  Lemma potrf_single : forall (R : roots N) (rp : N -> N) nb n nrhs uplo bS bXs A X,
    valid_uplo uplo -> 0 < nb -> 0 < n -> 0 < nrhs -> bS <> bXs ->
    ge_create nb n n = CrOk A (n * n) -> ge_create nb n nrhs = CrOk X (n * nrhs) ->
    Forall (single_task bS A bXs X bS A) (pzpotrf R rp uplo bS A) /\
    Forall (single_task bS A bXs X bXs X) (map sure (two_solves (F := N) uplo bS A bXs X)).
  Proof.
    intros R rp nb n nrhs uplo bS bXs A X Hu Hb Pm Pn NE EA EX.
    destruct (ge_create_dn nb n n A _ EA) as (HA & Am & An & _).
    destruct (ge_create_dn nb n nrhs X _ EX) as (HX & Xm & Xn & _).
    assert (HSA : forall i j, 0 <= i < ntl nb (d_n A) -> 0 <= j < ntl nb (d_n A) -> uplo_sel uplo i j = true -> in_tiles A i j).
    { rewrite An. apply (proj1 (dense_tiles nb n A uplo HA Am An)). }
    split; apply single_of_kdecl; try assumption.
    - left. reflexivity.
    - rewrite (PotrfGenProofs.pzpotrf_eq nb n A bS uplo Hu (in_tiles A) HA Am An HSA R rp).
      apply (plist_kgood nb n A bS uplo Hu (in_tiles A) HA Am An HSA).
    - rewrite (PotrfGenProofs.pzpotrf_eq nb n A bS uplo Hu (in_tiles A) HA Am An HSA R rp).
      apply (plist_sound nb n A bS uplo Hu (in_tiles A) HSA).
    - intros env E1 E2. rewrite (PotrfGenProofs.pzpotrf_eq nb n A bS uplo Hu (in_tiles A) HA Am An HSA R rp).
      apply (plist_kdecl nb n A bS uplo Hu (in_tiles A) HA Am An HSA). assumption.
    - intros k l Hk W.
      rewrite (PotrfGenProofs.pzpotrf_eq nb n A bS uplo Hu (in_tiles A) HA Am An HSA R rp) in Hk.
      pose proof (plist_kdecl nb n A bS uplo Hu (in_tiles A) HA Am An HSA R rp [(bS, homeD A (in_tiles A))] (or_introl eq_refl)) as KD.
      rewrite Forall_forall in KD. destruct (KD (ck_task k) (in_map ck_task _ _ Hk)) as [_ W'].
      destruct (W' l W) as (d & _ & (E1 & h & I & _) & _). cbn in I. destruct I as [I|[]]. injection I as I _. symmetry. exact I.
    - right. left. reflexivity.
    - rewrite map_sure. apply (two_solves_kgood nb A X (in_tiles A) bS bXs uplo n); auto; congruence.
    - apply cksound_sure.
    - intros env E1 E2. rewrite map_sure. apply (two_solves_kdecl nb A X (in_tiles A) bS bXs uplo n); auto; congruence.
    - intros k l Hk W. apply in_map_iff in Hk. destruct Hk as (k' & <- & Hk').
      apply (two_solves_writes nb A X (in_tiles A) bS bXs uplo n) with (k := k'); auto; congruence.
  Qed.
End Call.
