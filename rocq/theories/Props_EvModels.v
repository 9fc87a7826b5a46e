(** C95: EDGE-V's velocity models, bathymetry grids and mesh refinement.  Specification: EvSpec. *)
From Coq Require Import List Arith Bool Reals Lra Lia Permutation.
From Verif Require Import Util EvSpec EvModels EvModelsV.
Import ListNotations.
Open Scope R_scope.

(** *** Refinement *)
Section Refinement.
Variables (bigD bigF junk : R) (nVes nEls nElVes : nat) (elVe : list nat) (veCrds : list pt) (minSpeed : list R) (expr : refEnv -> refEnv).
Hypotheses (Hm : validMesh nVes nEls nElVes elVe) (Hc : length veCrds = nVes) (Hw : length minSpeed = nVes).
Local Notation ves := (vesOf nElVes elVe).
(** the expression assigns frequency and edges per wave length for all positions and ratios *)
Variables frequency edges : R -> R -> R -> R -> R.
Hypothesis Ha : forall e, rFreq (expr e) = frequency (rX e) (rY e) (rZ e) (rRatio e) /\ rEpw (expr e) = edges (rX e) (rY e) (rZ e) (rRatio e).
(** least and greatest speed of an element's vertices *)
Variables lo hi : nat -> R.
Hypothesis Hlh : forall el, (el < nEls)%nat -> isMin (at_ minSpeed (ves el)) (lo el) /\ isMax (at_ minSpeed (ves el)) (hi el) /\ 0 < lo el <= bigD.
Definition ofCentre (f : R -> R -> R -> R -> R) (el : nat) : R :=
  f (mean (map (crd veCrds 0) (ves el))) (mean (map (crd veCrds 1) (ves el))) (mean (map (crd veCrds 2) (ves el))) (hi el / lo el).
Local Notation freq := (ofCentre frequency).
Local Notation epw := (ofCentre edges).

Lemma load_el el e : (el < nEls)%nat -> exists e', loadRef bigD nElVes elVe veCrds minSpeed el e = Ok e' /\ rFreq (expr e') = freq el /\ rEpw (expr e') = epw el.
Proof.
  intros He. destruct (Hlh el He) as (H1 & H2 & H3). eexists. split.
  - apply (loadRef_ok bigD nVes nEls nElVes elVe veCrds minSpeed Hm Hc Hw el e (lo el) (hi el)); auto; try lra. destruct H1 as (I1 & I2), H2 as (I3 & I4). pose proof (I4 _ I1). lra.
  - apply Ha.
Qed.

(** Every vertex gets the largest target length with which all its elements have the requested number of edges per wave length (speed divided by frequency); the frequency and
    the number of edges are the expression's for the centre of the element and the ratio of the greatest and least speed. The distribution to threads does not matter. *)
Theorem C95_refinement ts : (forall el, (el < nEls)%nat -> 0 < freq el /\ 0 < epw el) -> distribution nEls ts ->
  exists refVe refEl, refInit bigD bigF junk nVes nEls nElVes elVe veCrds minSpeed expr ts = Ok (refVe, refEl) /\ length refVe = nVes /\ length refEl = nEls /\
  (forall el v, (el < nEls)%nat -> In v (ves el) -> nth v refVe 0 * epw el <= nth v minSpeed 0 / freq el) /\
  (forall v, (v < nVes)%nat -> nth v refVe 0 <= bigF) /\
  (forall v, (v < nVes)%nat -> nth v refVe 0 = bigF \/ exists el, (el < nEls)%nat /\ In v (ves el) /\ nth v refVe 0 * epw el = nth v minSpeed 0 / freq el) /\
  (forall el, (el < nEls)%nat -> nth el refEl 0 * epw el = mean (at_ minSpeed (ves el)) / freq el).
Proof.
  intros Hp D. unfold refInit.
  rewrite (threads_ok _ expr outRef nEls (fun el => 1 / (freq el * epw el)) 0).
  2:{ intros i e Hi. destruct (load_el i e Hi) as (e' & E1 & E2 & E3). exists e'. split; [exact E1|]. unfold outRef. rewrite E2, E3. destruct (Hp i Hi). rewrite !pos_true by assumption. reflexivity. }
  2:{ exact D. }
  2:{ apply repeat_length. }
  cbn [bind]. destruct (propagate_ok bigF nVes nEls nElVes elVe minSpeed Hm Hw (fun el => 1 / (freq el * epw el)) (map (fun el => 1 / (freq el * epw el)) (seq 0 nEls))) as (rv & re & E & L1 & L2 & H1 & H2).
  - now rewrite map_length, seq_length.
  - intros el He. rewrite (nth_indep _ 0 (1 / (freq 0%nat * epw 0%nat))) by (rewrite map_length, seq_length; exact He). rewrite (map_nth (fun el => 1 / (freq el * epw el))), seq_nth by exact He. reflexivity.
  - exists rv, re. split; [exact E|]. split; [exact L1|]. split; [exact L2|].
    assert (V : forall el v, (el < nEls)%nat -> In v (ves el) -> (v < nVes)%nat).
    { intros el v He Hv. apply ves_In in Hv. destruct Hv as (ve & Hve & ->). now apply (ves_rd nVes nEls nElVes elVe Hm). }
    split; [|split; [|split]].
    + intros el v He Hv. destruct (Hp el He) as (F & P). destruct (H1 v (V el v He Hv)) as (_ & A & _). specialize (A el ltac:(apply in_seq; lia) Hv).
      apply (Rmult_le_compat_r (epw el)) in A; [|lra]. eapply Rle_trans; [exact A|]. right. field. lra.
    + intros v Hv. apply (H1 v Hv).
    + intros v Hv. destruct (H1 v Hv) as (_ & _ & [A|(el & B1 & B2 & B3)]); [now left|right]. apply in_seq in B1. exists el. split; [lia|]. split; [exact B2|]. rewrite B3. destruct (Hp el ltac:(lia)). field. lra.
    + intros el He. rewrite H2 by exact He. destruct (Hp el He). field. lra.
Qed.
(** An element for which the expression gives no positive frequency or number of edges stops the program. *)
Theorem C95_refinement_invalid ts el : (el < nEls)%nat -> freq el <= 0 \/ epw el <= 0 -> distribution nEls ts ->
  exists r, refInit bigD bigF junk nVes nEls nElVes elVe veCrds minSpeed expr ts = Er r.
Proof.
  intros He Hn D. unfold refInit. match goal with |- context [threads ?l expr outRef ?e0 ts ?a] => enough (T : exists r, threads l expr outRef e0 ts a = Er r) by (destruct T as (r & ->); cbn [bind]; eauto) end.
  apply (threads_er _ expr outRef _ ts el).
  - apply (Permutation_in _ (Permutation_sym D)), in_seq. lia.
  - intros e. destruct (load_el el e He) as (e' & -> & E2 & E3). cbn [bind]. unfold outRef. rewrite E2, E3. unfold pos. destruct (Rlt_dec 0 (freq el)), (Rlt_dec 0 (epw el)); cbn [check bind]; eauto. lra.
Qed.
End Refinement.

(** An expression which does not assign in all cases: the values of the element before are used, so the result depends on the number of threads. *)
Definition sometimes (e : refEnv) : refEnv := if Rlt_dec (rX e) 0 then {| rX := rX e; rY := rY e; rZ := rZ e; rRatio := rRatio e; rEpw := 1; rFreq := 1 |} else e.
Lemma sometimes_neg x y z r p f : x < 0 -> sometimes {| rX := x; rY := y; rZ := z; rRatio := r; rEpw := p; rFreq := f |} = {| rX := x; rY := y; rZ := z; rRatio := r; rEpw := 1; rFreq := 1 |}.
Proof. intros. unfold sometimes. cbn. destruct (Rlt_dec x 0); [reflexivity|lra]. Qed.
Lemma sometimes_pos x y z r p f : 0 <= x -> sometimes {| rX := x; rY := y; rZ := z; rRatio := r; rEpw := p; rFreq := f |} = {| rX := x; rY := y; rZ := z; rRatio := r; rEpw := p; rFreq := f |}.
Proof. intros. unfold sometimes. cbn. destruct (Rlt_dec x 0); [lra|reflexivity]. Qed.
Definition twoTrias : list nat := [0; 1; 2; 1; 2; 3]%nat.
Definition twoCrds : list pt := [(-3, 0, 0); (0, 1, 0); (0, -1, 0); (3, 0, 0)].
Lemma two_valid : validMesh 4 2 3 twoTrias.
Proof. split; [lia|]. split; [reflexivity|]. intros v Hv. cbn in Hv. lia. Qed.
Lemma two_load bigD el e : 1 <= bigD -> (el < 2)%nat -> loadRef bigD 3 twoTrias twoCrds [1; 1; 1; 1] el e = Ok {| rX := 2 * INR el - 1; rY := 0; rZ := 0; rRatio := 1; rEpw := rEpw e; rFreq := rFreq e |}.
Proof.
  intros HB He. rewrite (loadRef_ok bigD 4 2 3 twoTrias twoCrds [1; 1; 1; 1] two_valid eq_refl eq_refl el e 1 1); try lra; try exact He.
  - destruct el as [|[|el]]; [| |lia]; f_equal; unfold mean, total, crd, vesOf, twoTrias, twoCrds; cbn; f_equal; field.
  - destruct el as [|[|el]]; [| |lia]; (split; [now left|]); intros x Hx; cbn in Hx; destruct Hx as [<-|[<-|[<-|[]]]]; lra.
  - destruct el as [|[|el]]; [| |lia]; (split; [now left|]); intros x Hx; cbn in Hx; destruct Hx as [<-|[<-|[<-|[]]]]; lra.
Qed.
Theorem C95_threads_refuted bigD bigF junk : 1 < bigD -> exists expr ts ts' rv re rv' re', distribution 2 ts /\ distribution 2 ts' /\
  refInit bigD bigF junk 4 2 3 twoTrias twoCrds [1; 1; 1; 1] expr ts = Ok (rv, re) /\ refInit bigD bigF junk 4 2 3 twoTrias twoCrds [1; 1; 1; 1] expr ts' = Ok (rv', re') /\ re <> re'.
Proof.
  intros HB. exists sometimes, [[0; 1]%nat], [[0%nat]; [1%nat]].
  assert (P1 : pos 1 = true) by (apply pos_true; lra). assert (PB : pos bigD = true) by (apply pos_true; lra).
  destruct (propagate_ok bigF 4 2 3 twoTrias [1; 1; 1; 1] two_valid eq_refl (fun el => 1 / (1 * 1)) [1 / (1 * 1); 1 / (1 * 1)] eq_refl) as (rv & re & E & _ & L & _ & H); [intros [|[|el]] Hel; [reflexivity..|lia]|].
  destruct (propagate_ok bigF 4 2 3 twoTrias [1; 1; 1; 1] two_valid eq_refl (fun el => if (el =? 0)%nat then 1 / (1 * 1) else 1 / (bigD * bigD)) [1 / (1 * 1); 1 / (bigD * bigD)] eq_refl) as (rv' & re' & E' & _ & L' & _ & H'); [intros [|[|el]] Hel; [reflexivity..|lia]|].
  exists rv, re, rv', re'. split; [apply Permutation_refl|]. split; [apply Permutation_refl|]. split; [|split].
  - unfold refInit. cbn [threads thread repeat]. rewrite two_load by (lra || lia). cbn [bind INR]. rewrite sometimes_neg by lra. unfold outRef at 1. cbn [rFreq rEpw]. rewrite P1. cbn [check bind wr length Nat.ltb Nat.leb upd].
    rewrite two_load by (lra || lia). cbn [bind INR rEpw rFreq]. rewrite sometimes_pos by lra. unfold outRef at 1. cbn [rFreq rEpw]. rewrite P1. cbn [check bind wr length Nat.ltb Nat.leb upd]. exact E.
  - unfold refInit. cbn [threads thread repeat]. rewrite two_load by (lra || lia). cbn [bind INR]. rewrite sometimes_neg by lra. unfold outRef at 1. cbn [rFreq rEpw]. rewrite P1. cbn [check bind wr length Nat.ltb Nat.leb upd].
    rewrite two_load by (lra || lia). cbn [bind INR rEpw rFreq]. rewrite sometimes_pos by lra. unfold outRef at 1. cbn [rFreq rEpw]. rewrite PB. cbn [check bind wr length Nat.ltb Nat.leb upd]. exact E'.
  - intros X. rewrite X in H. pose proof (H 1%nat ltac:(lia)) as H1. pose proof (H' 1%nat ltac:(lia)) as H2. rewrite H1 in H2. cbn [Nat.eqb] in H2. unfold mean, at_, vesOf, twoTrias, total in H2. cbn in H2.
    assert (B : 1 / (bigD * bigD) < 1) by (apply (Rmult_lt_reg_r (bigD * bigD)); [nra|]; unfold Rdiv; rewrite Rmult_assoc, Rinv_l by nra; nra). lra.
Qed.

(** *** Grids *)
Section Grid.
Variables x y z : list R.
Hypotheses (Hx : increasing x) (Hy : increasing y) (Hz : length z = (length x * length y)%nat).
(** points in the grid's intervals get the value at the upper corner *)
Theorem C95_grid pts c r : (0 < length z)%nat -> (forall i, (i < length pts)%nat -> let '(px, py, _) := nth i pts (0, 0, 0) in interval x px (c i) /\ interval y py (r i)) ->
  gridInit x y z pts = Ok (map (fun i => nth (r i * length x + c i) z 0) (seq 0 (length pts))).
Proof.
  intros L Hi. unfold gridInit. assert (Lx : (0 < length x)%nat) by (destruct (Nat.eq_dec (length x) 0) as [E|]; [rewrite E in Hz|]; lia). assert (Ly : (0 < length y)%nat) by (destruct (Nat.eq_dec (length y) 0) as [E|]; [rewrite E, Nat.mul_0_r in Hz|]; lia).
  replace (0 <? length z)%nat with true by (symmetry; apply Nat.ltb_lt; exact L). cbn [check bind]. replace ((length x =? 0) || (length y =? 0))%nat with false by (symmetry; apply orb_false_iff; split; apply Nat.eqb_neq; lia).
  replace (length z mod length x =? 0)%nat with true by (symmetry; apply Nat.eqb_eq; rewrite Hz, Nat.mul_comm; apply Nat.mod_mul; lia).
  replace (length z mod length y =? 0)%nat with true by (symmetry; apply Nat.eqb_eq; rewrite Hz; apply Nat.mod_mul; lia). cbn [check bind].
  set (f := fun i => nth (r i * length x + c i) z 0).
  match goal with |- for_ 0 ?n ?b ?s = _ => destruct (for_ok (fun k data => length data = n /\ forall j, (j < k)%nat -> nth j data 0 = f j) 0 n b s) as (data & E & Ld & Hd) end.
  - lia.
  - split; [apply repeat_length|lia].
  - intros k data Hk (Ld & Hd). specialize (Hi k ltac:(lia)). rewrite (rd_ok pts k (0, 0, 0)) by lia. cbn [bind]. destruct (nth k pts (0, 0, 0)) as [[px py] pz]. destruct Hi as (I1 & I2). cbv zeta.
    rewrite (lowerBound_interval x px (c k) Hx I1), (lowerBound_interval y py (r k) Hy I2). rewrite (rd_ok x 0 0) by lia. cbn [bind]. rewrite (ltR_true _ px) by exact (interval_first x px (c k) Hx I1). cbn [check bind].
    rewrite (rd_ok y 0 0) by lia. cbn [bind]. rewrite (ltR_true _ py) by exact (interval_first y py (r k) Hy I2). cbn [check bind]. destruct I1 as (C1 & _), I2 as (R1 & _).
    replace (c k <? length x)%nat with true by (symmetry; apply Nat.ltb_lt; lia). replace (r k <? length y)%nat with true by (symmetry; apply Nat.ltb_lt; lia). cbn [check bind].
    rewrite (rd_ok z _ 0) by (rewrite Hz; nia). cbn [bind]. rewrite wr_ok by lia. eexists. split; [reflexivity|]. split; [now rewrite length_upd|]. intros j Hj. destruct (Nat.eq_dec j k) as [->|]; [now rewrite nth_upd_eq by lia|]. rewrite nth_upd_ne by auto. apply Hd. lia.
  - rewrite E. f_equal. apply (nth_ext _ _ 0 0); [now rewrite map_length, seq_length|]. intros j Hj. rewrite Ld in Hj. rewrite Hd by exact Hj. rewrite (nth_indep _ 0 (f 0%nat)) by (rewrite map_length, seq_length; exact Hj). now rewrite (map_nth f), seq_nth.
Qed.
(** a point outside of the grid stops the program *)
Theorem C95_grid_outside pts i : (0 < length z)%nat -> (i < length pts)%nat ->
  (let '(px, py, _) := nth i pts (0, 0, 0) in px < nth 0 x 0 \/ nth (length x - 1) x 0 < px \/ py < nth 0 y 0 \/ nth (length y - 1) y 0 < py) -> gridInit x y z pts = Er Echeck.
Proof.
  intros L Hi Ho. unfold gridInit. assert (Lx : (0 < length x)%nat) by (destruct (Nat.eq_dec (length x) 0) as [E|]; [rewrite E in Hz|]; lia). assert (Ly : (0 < length y)%nat) by (destruct (Nat.eq_dec (length y) 0) as [E|]; [rewrite E, Nat.mul_0_r in Hz|]; lia).
  replace (0 <? length z)%nat with true by (symmetry; apply Nat.ltb_lt; exact L). cbn [check bind]. replace ((length x =? 0) || (length y =? 0))%nat with false by (symmetry; apply orb_false_iff; split; apply Nat.eqb_neq; lia).
  replace (length z mod length x =? 0)%nat with true by (symmetry; apply Nat.eqb_eq; rewrite Hz, Nat.mul_comm; apply Nat.mod_mul; lia).
  replace (length z mod length y =? 0)%nat with true by (symmetry; apply Nat.eqb_eq; rewrite Hz; apply Nat.mod_mul; lia). cbn [check bind]. unfold for_.
  apply (for_n_check (fun data => length data = length pts)) with (k := i); [lia|apply repeat_length| |].
  - intros k data Ld. destruct (Nat.lt_ge_cases k (length pts)) as [Hk|Hk]; [|right; right; left; lia]. rewrite (rd_ok pts k (0, 0, 0)) by lia. cbn [bind]. destruct (nth k pts (0, 0, 0)) as [[px py] pz]. cbv zeta.
    rewrite (rd_ok x 0 0) by lia. rewrite (rd_ok y 0 0) by lia. cbn [bind]. destruct (ltR (nth 0 x 0) px); cbn [check bind]; [|now right; left]. destruct (ltR (nth 0 y 0) py); cbn [check bind]; [|now right; left].
    destruct (Nat.ltb_spec (lowerBound x px) (length x)); cbn [check bind]; [|now right; left]. destruct (Nat.ltb_spec (lowerBound y py) (length y)); cbn [check bind]; [|now right; left].
    rewrite (rd_ok z _ 0) by (rewrite Hz; nia). cbn [bind]. rewrite wr_ok by lia. left. eexists. split; [reflexivity|now rewrite length_upd].
  - intros data Ld. rewrite (rd_ok pts i (0, 0, 0)) by lia. cbn [bind]. destruct (nth i pts (0, 0, 0)) as [[px py] pz]. cbv zeta.
    rewrite (rd_ok x 0 0) by lia. rewrite (rd_ok y 0 0) by lia. cbn [bind]. unfold ltR. destruct (Rlt_dec (nth 0 x 0) px); cbn [check bind]; [|reflexivity]. destruct (Rlt_dec (nth 0 y 0) py); cbn [check bind]; [|reflexivity].
    assert (G : forall l p, increasing l -> (0 < length l)%nat -> nth (length l - 1) l 0 < p -> (lowerBound l p <? length l)%nat = false).
    { intros l p Sl Ll Hp. apply Nat.ltb_ge. destruct (Nat.lt_ge_cases (lowerBound l p) (length l)) as [H|H]; [|exact H]. pose proof (lowerBound_hi l p H).
      destruct (Nat.eq_dec (lowerBound l p) (length l - 1)) as [E|E]; [rewrite E in *; lra|]. pose proof (Sl (lowerBound l p) (length l - 1)%nat ltac:(lia)). lra. }
    destruct Ho as [H|[H|[H|H]]]; try lra; [rewrite (G x px Hx Lx H)|rewrite (G y py Hy Ly H); destruct (lowerBound x px <? length x)%nat]; reflexivity.
Qed.
End Grid.
(** The checks of the sizes are not sufficient: a file may pass them although a value of a grid point is missing, and memory behind the values is read. *)
Theorem C95_grid_size_refuted : exists x y z pts, increasing x /\ increasing y /\ (0 < length z)%nat /\ (length z mod length x = 0)%nat /\ (length z mod length y = 0)%nat /\ gridInit x y z pts = Er Eub.
Proof.
  exists [0; 1], [0; 1], [5; 6], [(1, 1, 0)]. assert (I : increasing [0; 1]) by (intros [|[|i]] [|[|j]] H; cbn [length nth] in *; try lia; lra). do 2 (split; [exact I|]). split; [cbn; lia|]. do 2 (split; [reflexivity|]).
  unfold gridInit. cbn [length Nat.ltb Nat.leb check bind Nat.eqb orb]. change (2 mod 2 =? 0)%nat with true. cbn [check bind]. unfold for_. cbn [Nat.sub for_n]. cbn [rd nth_error bind lowerBound].
  rewrite (ltR_true 0 1) by lra. rewrite (ltR_false 1 1) by lra. reflexivity.
Qed.
(** A point on the first grid line is rejected. *)
Theorem C95_grid_first_line_refuted : exists x y z px py, increasing x /\ increasing y /\ length z = (length x * length y)%nat /\ (0 < length z)%nat /\
  nth 0 x 0 <= px <= nth (length x - 1) x 0 /\ nth 0 y 0 <= py <= nth (length y - 1) y 0 /\ gridInit x y z [(px, py, 0)] = Er Echeck.
Proof.
  exists [0; 1], [0; 1], [1; 2; 3; 4], 0, 1. assert (I : increasing [0; 1]) by (intros [|[|i]] [|[|j]] H; cbn [length nth] in *; try lia; lra). cbn [length Nat.sub nth]. do 2 (split; [exact I|]). split; [reflexivity|]. split; [lia|]. split; [lra|]. split; [lra|].
  unfold gridInit. cbn [length Nat.ltb Nat.leb check bind Nat.eqb orb]. change (4 mod 2 =? 0)%nat with true. cbn [check bind]. unfold for_. cbn [Nat.sub for_n]. cbn [rd nth_error bind lowerBound].
  rewrite (ltR_false 0 0) by lra. reflexivity.
Qed.

(** *** Speeds from expressions *)
Definition on (f : R -> R -> R -> R -> R) (p : pt) (dt : R) : R := let '(x, y, z) := p in f x y z dt.
(** tsunami: the speeds of a point are the expression's for its coordinates and the value of the grid *)
Theorem C95_grid_expression pts data expr lo hi ts : length data = length pts ->
  (forall e, gMin (expr e) = lo (gX e) (gY e) (gZ e) (gData e) /\ gMax (expr e) = hi (gX e) (gY e) (gZ e) (gData e)) -> distribution (length pts) ts ->
  gridExprInit pts data expr ts = Ok (map (fun i => (on lo (nth i pts (0, 0, 0)) (nth i data 0), on hi (nth i pts (0, 0, 0)) (nth i data 0))) (seq 0 (length pts))).
Proof.
  intros L Ha D. unfold gridExprInit. apply (threads_ok _ expr _ (length pts) _ (0, 0)); [|exact D|apply repeat_length]. intros i e Hi. unfold loadGrid. rewrite (rd_ok pts i (0, 0, 0)) by exact Hi. cbn [bind].
  destruct (nth i pts (0, 0, 0)) as [[px py] pz]. rewrite (rd_ok data i 0) by lia. cbn [bind]. eexists. split; [reflexivity|]. unfold outGrid. cbn [on]. destruct (Ha {| gX := px; gY := py; gZ := pz; gData := nth i data 0; gMin := gMin e; gMax := gMax e |}) as (-> & ->). reflexivity.
Qed.
(** Centroid based time steps of the tsunami model: the grid has the values at the vertices, so element number i gets the value of vertex number i ... *)
Theorem C95_centroid_vertex x y z ves cens data expr lo hi tsV tsC : gridInit x y z ves = Ok data -> length data = length ves -> (length cens <= length ves)%nat ->
  (forall e, gMin (expr e) = lo (gX e) (gY e) (gZ e) (gData e) /\ gMax (expr e) = hi (gX e) (gY e) (gZ e) (gData e)) -> distribution (length ves) tsV -> distribution (length cens) tsC ->
  tsunamiSpeeds x y z ves cens expr true tsV tsC = Ok (map (fun i => (on lo (nth i cens (0, 0, 0)) (nth i data 0), on hi (nth i cens (0, 0, 0)) (nth i data 0))) (seq 0 (length cens))).
Proof.
  intros G L Lc Ha D1 D2. unfold tsunamiSpeeds. rewrite G. cbn [bind]. rewrite (C95_grid_expression ves data expr lo hi tsV L Ha D1). cbn [bind].
  unfold gridExprInit. apply (threads_ok _ expr _ (length cens) _ (0, 0)); [|exact D2|apply repeat_length]. intros i e Hi. unfold loadGrid. rewrite (rd_ok cens i (0, 0, 0)) by exact Hi. cbn [bind].
  destruct (nth i cens (0, 0, 0)) as [[px py] pz]. rewrite (rd_ok data i 0) by lia. cbn [bind]. eexists. split; [reflexivity|]. unfold outGrid. cbn [on]. destruct (Ha {| gX := px; gY := py; gZ := pz; gData := nth i data 0; gMin := gMin e; gMax := gMax e |}) as (-> & ->). reflexivity.
Qed.
(** ... and with more elements than vertices, memory behind the values is read. *)
Theorem C95_centroid_refuted x y z ves cens expr tsV tsC data : gridInit x y z ves = Ok data -> length data = length ves -> (length ves < length cens)%nat -> distribution (length cens) tsC ->
  exists r, tsunamiSpeeds x y z ves cens expr true tsV tsC = Er r.
Proof.
  intros G L Lc D. unfold tsunamiSpeeds. rewrite G. cbn [bind]. destruct (gridExprInit ves data expr tsV); cbn [bind]; [|eauto]. unfold gridExprInit.
  apply (threads_er _ expr outGrid _ tsC (length ves)).
  - apply (Permutation_in _ (Permutation_sym D)), in_seq. lia.
  - intros e. unfold loadGrid. rewrite (rd_ok cens _ (0, 0, 0)) by exact Lc. cbn [bind]. destruct (nth _ cens _) as [[px py] pz]. unfold rd. replace (nth_error data (length ves)) with (@None R) by (symmetry; apply nth_error_None; lia). cbn [bind]. eauto.
Qed.
Definition on3 (f : R -> R -> R -> R) (p : pt) : R := let '(x, y, z) := p in f x y z.
(** seismic models *)
Theorem C95_seismic bigD pts expr vp vs qp qs :
  (forall e, sVp (expr e) = vp (sX e) (sY e) (sZ e) /\ sVs (expr e) = vs (sX e) (sY e) (sZ e) /\ sQp (expr e) = qp (sX e) (sY e) (sZ e) /\ sQs (expr e) = qs (sX e) (sY e) (sZ e)) ->
  seisInit bigD pts expr = Ok (map (fun p => (on3 vp p, on3 vs p, on3 qp p, on3 qs p)) pts).
Proof.
  intros Ha. set (f := fun p => (on3 vp p, on3 vs p, on3 qp p, on3 qs p)). set (e0 := {| sX := bigD; sY := bigD; sZ := bigD; sVp := bigD; sVs := bigD; sQp := bigD; sQs := bigD |}).
  pose proof (threads_ok (loadSeis pts) expr outSeis (length pts) (fun i => f (nth i pts (0, 0, 0))) (0, 0, 0, 0)) as T.
  specialize (T ltac:(intros i e Hi; unfold loadSeis; rewrite (rd_ok pts i (0, 0, 0)) by exact Hi; cbn [bind]; destruct (nth i pts (0, 0, 0)) as [[px py] pz]; eexists; split; [reflexivity|]; unfold outSeis, f; cbn [on3];
    destruct (Ha {| sX := px; sY := py; sZ := pz; sVp := sVp e; sVs := sVs e; sQp := sQp e; sQs := sQs e |}) as (-> & -> & -> & ->); reflexivity) e0 [seq 0 (length pts)] (repeat (0, 0, 0, 0) (length pts))).
  specialize (T ltac:(unfold distribution; cbn [concat]; rewrite app_nil_r; apply Permutation_refl) (repeat_length _ _)). cbn [threads] in T.
  unfold seisInit. fold e0. destruct (thread (loadSeis pts) expr outSeis e0 (seq 0 (length pts)) (repeat (0, 0, 0, 0) (length pts))) as [l|]; [|discriminate]. cbn [bind] in T. rewrite T. f_equal.
  rewrite <- (map_map (fun i => nth i pts (0, 0, 0)) f). f_equal. apply (nth_ext _ _ (0, 0, 0) (0, 0, 0)); [now rewrite map_length, seq_length|]. intros j Hj. rewrite map_length, seq_length in Hj.
  rewrite (nth_indep _ (0, 0, 0) (nth 0 pts (0, 0, 0))) by (rewrite map_length, seq_length; exact Hj). rewrite (map_nth (fun i => nth i pts (0, 0, 0)) _ 0%nat), seq_nth by exact Hj. reflexivity.
Qed.
(** An expression which does not assign in all cases: the speeds of a point depend on the points before. *)
Theorem C95_seismic_order_refuted bigD : 1 < bigD -> exists expr p q a b, seisInit bigD [p; q] expr = Ok [a; b] /\ exists a' b', seisInit bigD [q; p] expr = Ok [b'; a'] /\ b <> b'.
Proof.
  intros HB. exists (fun e => if Rlt_dec (sX e) 0 then {| sX := sX e; sY := sY e; sZ := sZ e; sVp := 1; sVs := 1; sQp := 1; sQs := 1 |} else e), (-1, 0, 0), (1, 0, 0). unfold seisInit, outSeis. cbn [length seq thread loadSeis rd nth_error bind repeat]. unfold wr.
  cbn [sX length Nat.ltb Nat.leb upd bind]. destruct (Rlt_dec (-1) 0) as [_|]; [|lra]. cbn [sX sVp sVs sQp sQs]. destruct (Rlt_dec 1 0) as [|_]; [lra|]. cbn [sX sVp sVs sQp sQs].
  eexists _, _. split; [reflexivity|]. eexists _, _. split; [reflexivity|]. intros X. injection X. lra.
Qed.

(** *** Averages and bathymetry *)
Theorem C95_average nVes nEls nElVes elVe vals : validMesh nVes nEls nElVes elVe -> length vals = nVes ->
  elAve nElVes nEls elVe vals = Ok (map (fun el => mean (at_ vals (vesOf nElVes elVe el))) (seq 0 nEls)).
Proof.
  intros Hm L. unfold elAve. set (f := fun el => mean (at_ vals (vesOf nElVes elVe el))).
  match goal with |- for_ 0 nEls ?b ?s = _ => destruct (for_ok (fun k o => length o = nEls /\ forall j, (j < k)%nat -> nth j o 0 = f j) 0 nEls b s) as (o & E & Lo & Ho) end.
  - lia.
  - split; [apply repeat_length|lia].
  - intros k o Hk (Lo & Ho). set (g := fun ve => nth (k * nElVes + ve) elVe 0%nat).
    match goal with |- context [for_ 0 nElVes ?b ?s] => destruct (for_ok (fun j t => t = total (map (fun v => nth v vals 0) (map g (seq 0 j)))) 0 nElVes b s) as (t & E & ->) end.
    + lia.
    + reflexivity.
    + intros j t Hj ->. destruct (ves_rd nVes nEls nElVes elVe Hm k j) as (R1 & R2); [lia|lia|]. rewrite R1. cbn [bind]. fold (g j) in R2 |- *. rewrite (rd_ok vals _ 0) by lia. cbn [bind]. eexists. split; [reflexivity|]. now rewrite total_map_S.
    + rewrite E. cbn [bind]. rewrite wr_ok by lia. eexists. split; [reflexivity|]. split; [now rewrite length_upd|]. intros j Hj. destruct (Nat.eq_dec j k) as [->|]; [|rewrite nth_upd_ne by auto; apply Ho; lia].
      rewrite nth_upd_eq by lia. unfold f, mean, at_. now rewrite map_length, ves_len.
  - rewrite E. f_equal. apply (nth_ext _ _ 0 0); [now rewrite map_length, seq_length|]. intros j Hj. rewrite Lo in Hj. rewrite Ho by exact Hj. rewrite (nth_indep _ 0 (f 0%nat)) by (rewrite map_length, seq_length; exact Hj). now rewrite (map_nth f), seq_nth.
Qed.
(** Negative tolerance: no element has a bathymetry between the tolerance and minus the tolerance; all others keep their average. *)
Theorem C95_bathymetry nVes nEls nElVes elVe data tol : validMesh nVes nEls nElVes elVe -> length data = nVes -> tol <= 0 ->
  exists b, bathymetry nElVes nEls elVe data tol = Ok b /\ length b = nEls /\ forall el, (el < nEls)%nat -> let a := mean (at_ data (vesOf nElVes elVe el)) in
    (nth el b 0 <= tol \/ - tol <= nth el b 0) /\ (a <= tol \/ - tol <= a -> nth el b 0 = a) /\ (tol < a < - tol -> nth el b 0 = - tol).
Proof.
  intros Hm L Ht. unfold bathymetry. rewrite (C95_average nVes nEls nElVes elVe data Hm L). cbn [bind]. eexists. split; [reflexivity|]. split; [now rewrite !map_length, seq_length|]. intros el Hel. set (a := mean (at_ data (vesOf nElVes elVe el))).
  rewrite (nth_indep _ 0 (dryTol tol (mean (at_ data (vesOf nElVes elVe 0))))) by (rewrite !map_length, seq_length; exact Hel). rewrite (map_nth (dryTol tol)), (map_nth (fun el => mean (at_ data (vesOf nElVes elVe el)))), seq_nth by exact Hel. cbn [plus]. fold a.
  unfold dryTol, ltR. destruct (Rlt_dec tol a); [unfold Rmax; destruct (Rle_dec a (- tol))|]; (split; [|split; intros]); lra.
Qed.
(** Without the entry in the configuration the tolerance is zero (Config.cpp 80), not -25 (Config.h 69), and has no effect. *)
Theorem C95_bathymetry_zero b : dryTol 0 b = b.
Proof. unfold dryTol, ltR. destruct (Rlt_dec 0 b); [|reflexivity]. apply Rmax_left. lra. Qed.

(** *** Concrete cases *)
(** two triangles, speeds one, two edges per wave length, frequency four: all target lengths are 1 / 8, for one thread and for two *)
Definition always (e : refEnv) : refEnv := {| rX := rX e; rY := rY e; rZ := rZ e; rRatio := rRatio e; rEpw := 2; rFreq := 4 |}.
Example C95_refinement_ex ts : distribution 2 ts -> exists rv re, refInit 1000 1000 0 4 2 3 twoTrias twoCrds [1; 1; 1; 1] always ts = Ok (rv, re) /\ (nth 1 rv 0 <= 1 / 8 /\ nth 1 re 0 = 1 / 8).
Proof.
  intros D. destruct (C95_refinement 1000 1000 0 4 2 3 twoTrias twoCrds [1; 1; 1; 1] always two_valid eq_refl eq_refl (fun _ _ _ _ => 4) (fun _ _ _ _ => 2)) with (lo := fun _ : nat => 1) (hi := fun _ : nat => 1) (ts := ts) as (rv & re & E & _ & _ & H1 & _ & _ & H2); auto.
  - intros el He. repeat split; try lra; try (destruct el as [|[|el]]; [now left|now left|lia]); intros x Hx; destruct el as [|[|el]]; try lia; cbn in Hx; destruct Hx as [<-|[<-|[<-|[]]]]; lra.
  - intros el He. unfold ofCentre. lra.
  - exists rv, re. split; [exact E|]. specialize (H1 0%nat 1%nat ltac:(lia) ltac:(cbn; tauto)). specialize (H2 1%nat ltac:(lia)). unfold ofCentre, mean, at_, total, vesOf, twoTrias in H1, H2. cbn in H1, H2. split; lra.
Qed.
Example C95_distribution_ex : distribution 2 [[0; 1]%nat] /\ distribution 2 [[1%nat]; [0%nat]].
Proof. split; [apply Permutation_refl|]. apply perm_swap. Qed.
Definition gx : list R := [0; 1; 2].
Definition gy : list R := [0; 1].
Definition gz : list R := [0; 1; 2; 0; 10; 20].
Lemma gx_inc : increasing gx. Proof. intros [|[|[|i]]] [|[|[|j]]] H; cbn [length nth gx] in *; try lia; lra. Qed.
Lemma gy_inc : increasing gy. Proof. intros [|[|i]] [|[|j]] H; cbn [length nth gy] in *; try lia; lra. Qed.
Example C95_grid_ex : gridInit gx gy gz [(1, 1, 0); (2, 1, 0); (1, 1 / 2, 0)] = Ok [10; 20; 10] /\ gridInit gx gy gz [(4 / 3, 5 / 6, 0)] = Ok [20].
Proof.
  split.
  - rewrite (C95_grid gx gy gz gx_inc gy_inc eq_refl _ (fun i => if (i =? 1)%nat then 2%nat else 1%nat) (fun _ => 1%nat)); [reflexivity|cbn; lia|]. intros [|[|[|i]]] Hi; cbn [length nth] in *; try lia; unfold interval; cbn; repeat split; try lia; try lra.
  - rewrite (C95_grid gx gy gz gx_inc gy_inc eq_refl _ (fun _ => 2%nat) (fun _ => 1%nat)); [reflexivity|cbn; lia|]. intros [|i] Hi; cbn [length nth] in *; try lia; unfold interval; cbn; repeat split; try lia; try lra.
Qed.
(** one triangle; the speed is the depth: centroid based, it is the one of its first vertex (10) instead of the one of its centroid (20) *)
Example C95_centroid_ex : let ves := [(1, 1, 0); (2, 1, 0); (1, 1 / 2, 0)] in let cens := [(4 / 3, 5 / 6, 0)] in
  let depth e := {| gX := gX e; gY := gY e; gZ := gZ e; gData := gData e; gMin := gData e; gMax := gData e |} in
  tsunamiSpeeds gx gy gz ves cens depth true [[0; 1; 2]%nat] [[0%nat]] = Ok [(10, 10)] /\ (data <- gridInit gx gy gz cens;; gridExprInit cens data depth [[0%nat]]) = Ok [(20, 20)].
Proof.
  intros ves cens depth. destruct C95_grid_ex as (E1 & E2). split.
  - rewrite (C95_centroid_vertex gx gy gz ves cens [10; 20; 10] depth (fun _ _ _ d => d) (fun _ _ _ d => d)); [reflexivity|exact E1|reflexivity|cbn; lia|intros e; split; reflexivity|apply Permutation_refl|apply Permutation_refl].
  - unfold cens. rewrite E2. cbn [bind]. rewrite (C95_grid_expression [(4 / 3, 5 / 6, 0)] [20] depth (fun _ _ _ d => d) (fun _ _ _ d => d)); [reflexivity|reflexivity|intros e; split; reflexivity|apply Permutation_refl].
Qed.
Example C95_bathymetry_ex : bathymetry 3 1 [0; 1; 2]%nat [-10; -20; -30] (-25) = Ok [25] /\ bathymetry 3 1 [0; 1; 2]%nat [-100; -200; -300] (-25) = Ok [-200].
Proof.
  assert (V : validMesh 3 1 3 [0; 1; 2]%nat) by (split; [lia|]; split; [reflexivity|]; intros v Hv; cbn in Hv; lia). unfold bathymetry. rewrite (C95_average 3 1 3 _ [-10; -20; -30] V eq_refl), (C95_average 3 1 3 _ [-100; -200; -300] V eq_refl). cbn [bind seq map]. unfold mean, at_, total, vesOf. cbn. unfold dryTol, ltR. split.
  - destruct (Rlt_dec _ _) as [_|N]; [|lra]. rewrite Rmax_right by lra. repeat f_equal. lra.
  - destruct (Rlt_dec _ _) as [N|_]; [lra|]. repeat f_equal. lra.
Qed.

Print Assumptions C95_refinement.
Print Assumptions C95_refinement_invalid.
Print Assumptions C95_threads_refuted.
Print Assumptions C95_grid.
Print Assumptions C95_grid_outside.
Print Assumptions C95_grid_size_refuted.
Print Assumptions C95_grid_first_line_refuted.
Print Assumptions C95_grid_expression.
Print Assumptions C95_centroid_vertex.
Print Assumptions C95_centroid_refuted.
Print Assumptions C95_seismic.
Print Assumptions C95_seismic_order_refuted.
Print Assumptions C95_average.
Print Assumptions C95_bathymetry.
Print Assumptions C95_bathymetry_zero.
