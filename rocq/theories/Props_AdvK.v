(** C92: the kernels of the advection equation.  Specification: AdvKSpec (the scheme in an arbitrary ring); for the real numbers and EDGEpre's matrices (refMats of C84) the
    statements speak of functions on the reference element: [fieldS] of AdvKR, derivatives, integrals ([intEl] of BasisSpec), traces ([onFace], [turned] of EdgePreM). *)
From Coq Require Import List ZArith Reals Lra Lia Bool.
From Verif Require Import BasisSpec BasisInt BasisOrth Basis BasisModes BasisSpan BasisDer EdgePreM EdgePreP.
From Verif Require Import Util MeshConn MatMul Props_Mat Ader AderSpec AderV AderCk Props_Ader Props_AderR Props_EdgePre AdvK AdvKSpec AdvKV AdvKR.
From Verif Require Sparse Qpts AdvFs AdvFsV Props_AdvFs.
Import ListNotations.

(** *** The scheme, in any ring *)
Section Scheme.
Context {T : Type}.
Variables (A : alg T) (cf : conf).
Local Notation zero := (aZero A).
Local Notation add := (aAdd A).
Local Notation nDi := (nDis (cEl cf)).
Local Notation nMd := (nModes (cEl cf) (cSp cf)).
Local Notation nMdFa := (nModesFa (cEl cf) (cSp cf)).
Local Notation nFa := (nElFas (cEl cf)).
Local Notation nCr := (cCrs cf).
Local Notation ck := (ckA zero (aOne A) add (aMul A) (aDiv A) (aOfN A) (aIsz A) cf).
Local Notation integrate := (integrateA add (aMul A) (aDiv A) (aOfN A) cf).
Local Notation rep1 := (rep1 A cf).

(** The prediction stores the powers of the scheme's operator, applied to the DOFs, and their Taylor sum; a later call integrates over any other interval. *)
Theorem C92_predict stT dT star dofs scr der tInt q : 1 <= cTi cf -> sized nDi (nMd * nMd) stT -> length star = nDi ->
  length scr = nMd * nCr -> sized (cTi cf) (nMd * nCr) der -> rep1 nMd dofs q -> length tInt = nMd * nCr ->
  exists der' t', ck (storeT (aOpp A) stT) dT star dofs scr der tInt = Ok (der', t') /\ sized (cTi cf) (nMd * nCr) der' /\
    (forall d, d < cTi cf -> rep1 nMd (nth d der' []) (fun z => powS A cf (predK A cf stT) star d (q z))) /\
    rep1 nMd t' (fun z => predS A cf (predK A cf stT) star dT (q z)) /\
    forall dt o, length o = nMd * nCr -> exists o', integrate dt der' o = Ok o' /\ rep1 nMd o' (fun z => predS A cf (predK A cf stT) star dt (q z)).
Proof.
  intros HT Hm Hst Ls Sd Rq Lt. pose proof (sized_storeT A cf stT Hm) as Hm'.
  destruct (ckA_ok A cf _ dT star dofs scr der tInt q HT Hm' Hst Ls Sd Rq Lt) as (der' & t' & E & (D1 & D2) & R).
  assert (X : forall d z y, y < nMd -> powS A cf (matK A cf (storeT (aOpp A) stT)) star d (q z) y = powS A cf (predK A cf stT) star d (q z) y) by (intros; apply powS_ext; [intros; now apply ent_storeT|assumption]).
  assert (Y : forall dt z y, y < nMd -> predS A cf (matK A cf (storeT (aOpp A) stT)) star dt (q z) y = predS A cf (predK A cf stT) star dt (q z) y) by (intros; apply (sum_ext A); intros; now rewrite X).
  exists der', t'. split; [exact E|]. split; [exact D1|]. split; [intros d Hd; eapply rep1_ext; [now apply D2|]; intros; now apply X|]. split; [eapply rep1_ext; [exact R|]; intros; now apply Y|].
  intros dt o Lo. destruct (integrateA_ok A cf _ star q HT Hst dt o der' (conj D1 D2) Lo) as (o' & E' & R'). exists o'. split; [exact E'|]. eapply rep1_ext; [exact R'|]. intros; now apply Y.
Qed.
(** The volume kernel adds the operator with the stiffness matrices. *)
Theorem C92_volume st star t scr dofs tf q : sized nDi (nMd * nMd) st -> length star = nDi -> length scr = nMd * nCr -> rep1 nMd t tf -> rep1 nMd dofs q ->
  exists o, volA zero (aOne A) add (aMul A) (aIsz A) cf st star t scr dofs = Ok o /\ rep1 nMd o (fun z y => add (q z y) (opS A cf (volK A cf st) star (tf z) y)).
Proof. exact (volA_ok A cf st star t scr dofs tf q). Qed.
(** The surface kernels add the terms of the own faces, and of the data behind a face. *)
Theorem C92_surface_local fLN fT fs t s0 s1 dofs tf q : fluxMatrices cf fLN fT -> nFa <= length fs -> length s0 = nMdFa * nCr -> length s1 = nMdFa * nCr -> rep1 nMd t tf -> rep1 nMd dofs q ->
  exists o, surfLocalA zero (aOne A) add (aMul A) (aIsz A) cf fLN fT fs t s0 s1 dofs = Ok o /\
    rep1 nMd o (fun z y => add (q z y) (sum A nFa (fun fa => surfS A cf (nth fa fs zero) (nth fa fLN []) (nth fa fT []) (tf z) y))).
Proof. exact (surfLocalA_ok A cf fLN fT fs t s0 s1 dofs tf q). Qed.
Theorem C92_surface_neigh fLN fT fa vId fId f t s0 s1 dofs tf q : fluxMatrices cf fLN fT -> fa < nFa -> (forall v, vId = Some v -> v * nFa + fId < nFluxN (cEl cf)) ->
  length s0 = nMdFa * nCr -> length s1 = nMdFa * nCr -> rep1 nMd t tf -> rep1 nMd dofs q ->
  exists o, surfNeighA zero (aOne A) add (aMul A) (aIsz A) cf fLN fT fa vId fId f t s0 s1 dofs = Ok o /\
    rep1 nMd o (fun z y => add (q z y) (surfS A cf f (nth (match vId with Some v => nFa + (v * nFa + fId) | None => fa end) fLN []) (nth fa fT []) (tf z) y)).
Proof. exact (surfNeighA_ok A cf fLN fT fa vId fId f t s0 s1 dofs tf q). Qed.
End Scheme.

(** *** The equation, with real numbers and EDGEpre's matrices *)
Section Reals.
Variable cf : conf.
Local Open Scope R_scope.
Local Notation el := (refOf (cEl cf)).
Local Notation n := (cSp cf).
Local Notation nDi := (nDis (cEl cf)).
Local Notation nMd := (nModes (cEl cf) (cSp cf)).
Local Notation nMdFa := (nModesFa (cEl cf) (cSp cf)).
Local Notation nFa := (nElFas (cEl cf)).
Local Notation nCr := (cCrs cf).
Local Notation sq y := (norm2 el (modeAt el n y)).
Local Notation isz0 := (aIsz algR).
Local Notation ckR := (ckA 0 1 Rplus Rmult Rdiv INR isz0 cf).
Local Notation integrateR := (integrateA Rplus Rmult Rdiv INR cf).
Local Notation volR := (volA 0 1 Rplus Rmult isz0 cf).
Local Notation surfLocalR := (surfLocalA 0 1 Rplus Rmult isz0 cf).
Local Notation surfNeighR := (surfNeighA 0 1 Rplus Rmult isz0 cf).

(** the modes of simulation [z] in an array; the function they stand for *)
Definition simS (z : nat) (l : list R) (y : nat) : R := nth (y * nCr + z) l 0.
Definition fn (z : nat) (l : list R) : R -> R -> R -> R := fieldS cf (simS z l).
Lemma rep1_sim k l f z y : rep1 algR cf k l f -> (z < nCr)%nat -> (y < k)%nat -> simS z l y = f z y.
Proof. intros (_ & H) Hz Hy. specialize (H z 0%nat y Hz ltac:(lia) Hy). unfold pos in H. cbn [Nat.mul Nat.add] in H. exact H. Qed.
Lemma sim_rep1 k l : length l = (k * nCr)%nat -> rep1 algR cf k l (fun z => simS z l).
Proof. intros L. split; [lia|]. intros z [|x] y Hz Hx Hy; [|lia]. unfold pos. reflexivity. Qed.
Lemma fn_rep1 l f z a b c : rep1 algR cf nMd l f -> (z < nCr)%nat -> fn z l a b c = fieldS cf (f z) a b c.
Proof. intros H Hz. apply rsum_ext. intros y Hy. now rewrite (rep1_sim _ _ _ _ _ H Hz Hy). Qed.

(** Each derivative is minus the star matrices times the gradient of the previous one: the time derivative of q_t + star . grad q = 0. *)
Theorem C92_equation stT st fLN fT dT star dofs scr der tInt : refMats cf stT st fLN fT -> (1 <= cTi cf <= S n)%nat -> length star = nDi ->
  length scr = (nMd * nCr)%nat -> sized (cTi cf) (nMd * nCr) der -> length dofs = (nMd * nCr)%nat -> length tInt = (nMd * nCr)%nat ->
  exists der' t', ckR (storeT Ropp stT) dT star dofs scr der tInt = Ok (der', t') /\ forall z, (z < nCr)%nat ->
    (forall a b c, fn z (nth 0 der' []) a b c = fn z dofs a b c) /\
    (forall d a b c, (S d < cTi cf)%nat -> exists g : nat -> R, (forall di, (di < nDi)%nat -> partial (fn z (nth d der' [])) di a b c (g di)) /\ fn z (nth (S d) der' []) a b c = - rsum nDi (fun di => nth di star 0 * g di)) /\
    (forall a b c, fn z t' a b c = rsum (cTi cf) (fun d => dT ^ S d / INR (fact (S d)) * fn z (nth d der' []) a b c)).
Proof.
  intros HR HT Hst Ls Sd Lq Lt. destruct (C84_lowers cf _ _ _ _ HR ltac:(lia)) as (_ & _ & _ & Hm & _).
  destruct (C92_predict algR cf stT dT star dofs scr der tInt _ ltac:(lia) Hm Hst Ls Sd (sim_rep1 nMd dofs Lq) Lt) as (der' & t' & E & D1 & D2 & R & _). cbn [aZero aOne aAdd aMul aDiv aOfN aIsz aOpp algR] in E.
  exists der', t'. split; [exact E|]. intros z Hz. split; [|split].
  - intros a b c. now rewrite (fn_rep1 _ _ z a b c (D2 0%nat ltac:(lia)) Hz).
  - intros d a b c Hd. destruct (opS_field cf stT st fLN fT star (powS algR cf (predK algR cf stT) star d (simS z dofs)) a b c HR) as (g & P & G). exists g. split.
    + intros di Hdi. refine (partial_ext _ _ di a b c _ _ (P di Hdi)). intros. symmetry. now apply (fn_rep1 _ _ z _ _ _ (D2 d ltac:(lia))).
    + rewrite (fn_rep1 _ _ z a b c (D2 (S d) Hd) Hz). exact G.
  - intros a b c. rewrite (fn_rep1 _ _ z a b c R Hz). unfold fieldS, predS. rewrite (rsum_ext nMd _ (fun l => rsum (cTi cf) (fun d => dT ^ S d / INR (fact (S d)) * (powS algR cf (predK algR cf stT) star d (simS z dofs) l * bas el n l a b c)))).
    + rewrite rsum_swap. apply rsum_ext. intros d Hd. rewrite rsum_mul. f_equal. now rewrite (fn_rep1 _ _ z a b c (D2 d Hd) Hz).
    + intros l Hl. rewrite sum_rsum, <- rsum_mulr. apply rsum_ext. intros d Hd. cbn [aMul algR]. rewrite scal_R. ring.
Qed.

(** [r] is the integral over the next [dt] of what the flow brings to the point (a, b, c): the state upstream *)
Definition carried (star : list R) (q : R -> R -> R -> R) (dt : R) (r : R -> R -> R -> R) : Prop := forall a b c, exists U : R -> R, U 0 = 0 /\
  (forall t, derivable_pt_lim U t (q (a - t * nth 0 star 0) (b - t * nth 1 star 0) (c - t * nth 2 star 0))) /\ r a b c = U dt.
(** For triangles and tetrahedra the prediction is the exact solution of the advection equation in the element: the DOFs, carried with the flow, integrated over the time step (or over half
    of it, for neighbours with smaller steps). *)
Theorem C92_transport stT st fLN fT dT star dofs scr der tInt : refMats cf stT st fLN fT -> (cEl cf = TRIA3 \/ cEl cf = TET4) -> (1 <= n)%nat -> cTi cf = n -> length star = nDi ->
  length scr = (nMd * nCr)%nat -> sized (cTi cf) (nMd * nCr) der -> length dofs = (nMd * nCr)%nat -> length tInt = (nMd * nCr)%nat ->
  exists der' t', ckR (storeT Ropp stT) dT star dofs scr der tInt = Ok (der', t') /\ (forall z, (z < nCr)%nat -> carried star (fn z dofs) dT (fn z t')) /\
    forall dt o, length o = (nMd * nCr)%nat -> exists o', integrateR dt der' o = Ok o' /\ forall z, (z < nCr)%nat -> carried star (fn z dofs) dt (fn z o').
Proof.
  intros HR El Hn Ti Hst Ls Sd Lq Lt. destruct (C84_lowers cf _ _ _ _ HR ltac:(lia)) as (_ & _ & _ & Hm & _).
  destruct (C92_predict algR cf stT dT star dofs scr der tInt _ ltac:(lia) Hm Hst Ls Sd (sim_rep1 nMd dofs Lq) Lt) as (der' & t' & E & D1 & D2 & R & RI). cbn [aZero aOne aAdd aMul aDiv aOfN aIsz aOpp algR] in E, RI.
  assert (K : forall z dt o, (z < nCr)%nat -> rep1 algR cf nMd o (fun z => predS algR cf (predK algR cf stT) star dt (simS z dofs)) -> carried star (fn z dofs) dt (fn z o)).
  { intros z dt o Hz Ro a b c. set (h := fun k => at_t (fieldS cf (powS algR cf (predK algR cf stT) star k (simS z dofs))) star a b c).
    exists (fun t => rsum n (fun d => t ^ S d / INR (fact (S d)) * h d 0)). split; [|split].
    - rewrite (rsum_ext n _ (fun _ => 0 * 0)); [now rewrite rsum_mul, Rmult_0_l|]. intros d Hd. rewrite pow_i by lia. unfold Rdiv. ring.
    - intros t. change (fn z dofs (a - t * nth 0 star 0) (b - t * nth 1 star 0) (c - t * nth 2 star 0)) with (h 0%nat t). rewrite (taylor n h).
      + apply taylor_int.
      + intros k x Hk. exact (char_lim cf stT st fLN fT star _ a b c x HR Hst).
      + intros x. apply (powS_end cf stT st fLN fT); [exact HR|exact El|lia].
    - rewrite (fn_rep1 _ _ z a b c Ro Hz). unfold fieldS, predS. rewrite Ti, (rsum_ext nMd _ (fun l => rsum n (fun d => dt ^ S d / INR (fact (S d)) * (powS algR cf (predK algR cf stT) star d (simS z dofs) l * bas el n l a b c)))).
      + rewrite rsum_swap. apply rsum_ext. intros d Hd. rewrite rsum_mul. f_equal. unfold h, at_t. rewrite !Rmult_0_l, !Rminus_0_r. reflexivity.
      + intros l Hl. rewrite sum_rsum, <- rsum_mulr. apply rsum_ext. intros d Hd. cbn [aMul algR]. rewrite scal_R. ring. }
  exists der', t'. split; [exact E|]. split; [intros z Hz; apply K; assumption|]. intros dt o Lo. destruct (RI dt o Lo) as (o' & E' & R'). exists o'. split; [exact E'|]. intros z Hz. now apply K.
Qed.
(** With the star matrices of the set-up (C91_star), the flow is that of the advection speeds in physical coordinates: the image of the point upstream lies t times the speeds upstream. *)
Theorem C92_upstream ves s star q dt r xi : Props_AdvFs.moves el ves s star -> carried star q dt r -> length xi = nDi ->
  exists x U, Qpts.toPhy el ves xi = Ok x /\ U 0 = 0 /\ r (nth 0 xi 0) (nth 1 xi 0) (nth 2 xi 0) = U dt /\
    forall t, exists xi' y, Qpts.toPhy el ves xi' = Ok y /\ (forall k, (k < nDi)%nat -> nth k y 0 = nth k x 0 - t * Props_AdvFs.speed s k) /\ derivable_pt_lim U t (q (nth 0 xi' 0) (nth 1 xi' 0) (nth 2 xi' 0)).
Proof.
  intros (Ls & M) C Lx. rewrite refOf_dim in *. destruct (C (nth 0 xi 0) (nth 1 xi 0) (nth 2 xi 0)) as (U & U0 & UD & UE). destruct (M xi 0 Lx) as (x & _ & Ex & _). exists x, U. split; [exact Ex|]. split; [exact U0|]. split; [exact UE|].
  intros t. destruct (M xi (- t) Lx) as (x' & y & Ex' & Ey & H). assert (x' = x) as -> by congruence. exists (map (fun p => fst p + - t * snd p) (combine xi star)), y. split; [exact Ey|].
  split; [intros k Hk; rewrite H by exact Hk; ring|]. specialize (UD t).
  assert (N : forall k, (k < 3)%nat -> nth k (map (fun p => fst p + - t * snd p) (combine xi star)) 0 = nth k xi 0 - t * nth k star 0).
  { intros k _. destruct (Nat.lt_ge_cases k (dim el)) as [B|B].
    - rewrite (nth_indep _ 0 (0 + - t * 0)) by (rewrite map_length, combine_length; lia). change (0 + - t * 0) with ((fun p : R * R => fst p + - t * snd p) (0, 0)). rewrite map_nth, combine_nth by lia. cbn [fst snd]. ring.
    - rewrite !nth_overflow by (rewrite ?map_length, ?combine_length; lia). ring. }
  now rewrite !N by lia.
Qed.

(** The volume kernel: integral of the time integrated DOFs times the star matrices times the gradient of the test function. *)
Theorem C92_weak_volume stT st fLN fT star t scr dofs : refMats cf stT st fLN fT -> length star = nDi -> length scr = (nMd * nCr)%nat -> length t = (nMd * nCr)%nat -> length dofs = (nMd * nCr)%nat ->
  exists o, volR st star t scr dofs = Ok o /\ length o = (nMd * nCr)%nat /\ forall z y d, (z < nCr)%nat -> (y < nMd)%nat -> (forall di, (di < nDi)%nat -> isder di (bas el n y) (d di)) ->
    intEl el (fun a b c => fn z t a b c * rsum nDi (fun di => nth di star 0 * d di a b c)) ((simS z o y - simS z dofs y) * sq y).
Proof.
  intros HR Hst Ls Lt Lq. assert (Hm : sized nDi (nMd * nMd) st).
  { destruct (refMats_stored _ _ _ _ _ HR) as (sT & sV & fL & fN & fTm & _ & S1 & _ & _ & _ & L2 & _). split; [exact L2|]. intros di Hd. rewrite refOf_dim in Hd. now destruct (S1 di Hd) as (_ & (X & _)). }
  destruct (C92_volume algR cf st star t scr dofs _ _ Hm Hst Ls (sim_rep1 nMd t Lt) (sim_rep1 nMd dofs Lq)) as (o & E & R). exists o. split; [exact E|]. split; [destruct R; lia|]. intros z y d Hz Hy D.
  rewrite (rep1_sim _ _ _ _ _ R Hz Hy). cbn [aAdd algR]. replace ((simS z dofs y + opS algR cf (volK algR cf st) star (simS z t) y - simS z dofs y) * sq y) with (opS algR cf (volK algR cf st) star (simS z t) y * sq y) by ring.
  unfold opS. rewrite sum_rsum, <- rsum_mulr. refine (intEl_ext el (fun a b c => rsum nDi (fun di => nth di star 0 * (fn z t a b c * d di a b c))) _ _ _ _).
  - intros a b c. rewrite <- rsum_mul. apply rsum_ext. intros. ring.
  - apply (intEl_sum el nDi (fun di a b c => nth di star 0 * (fn z t a b c * d di a b c))). intros di Hd. cbn [aMul aZero algR]. rewrite Rmult_assoc. apply (intEl_scal el _ (fun a b c => fn z t a b c * d di a b c)).
    exact (C84_volume_kernel cf stT st fLN fT di (fun _ => simS z t) 0 y (d di) HR Hd Hy (D di Hd)).
Qed.
(** The surface kernels: integrals of flux solver times trace times trace of the test function; the trace behind the face is that of the adjacent element, taken at the same points (C84_shared). *)
Theorem C92_weak_local stT st fLN fT fs t s0 s1 dofs : refMats cf stT st fLN fT -> (nFa <= length fs)%nat -> length s0 = (nMdFa * nCr)%nat -> length s1 = (nMdFa * nCr)%nat -> length t = (nMd * nCr)%nat -> length dofs = (nMd * nCr)%nat ->
  exists o, surfLocalR fLN fT fs t s0 s1 dofs = Ok o /\ length o = (nMd * nCr)%nat /\ forall z y, (z < nCr)%nat -> (y < nMd)%nat -> exists I : nat -> R,
    (forall fa, (fa < nFa)%nat -> intEl (faEl el) (fun a b c => nth fa fs 0 * onFace el fa (fn z t) a b c * onFace el fa (bas el n y) a b c) (I fa)) /\ (simS z o y - simS z dofs y) * sq y = rsum nFa I.
Proof.
  intros HR Lf L0 L1 Lt Lq. assert (FM : fluxMatrices cf fLN fT).
  { set (cf0 := Build_conf (cEl cf) (cSp cf) 1 (cCrs cf) (cRms cf)). destruct (C84_lowers cf0 stT st fLN fT) as (_ & _ & _ & _ & _ & X); [exact HR|cbn; lia|exact X]. }
  destruct (C92_surface_local algR cf fLN fT fs t s0 s1 dofs _ _ FM Lf L0 L1 (sim_rep1 nMd t Lt) (sim_rep1 nMd dofs Lq)) as (o & E & R). exists o. split; [exact E|]. split; [destruct R; lia|]. intros z y Hz Hy.
  exists (fun fa => surfS algR cf (nth fa fs 0) (nth fa fLN []) (nth fa fT []) (simS z t) y * sq y). split.
  - intros fa Hfa. rewrite surfS_surf. pose proof (C84_surface_local cf stT st fLN fT [nth fa fs 0] fa (fun _ => simS z t) 0 y HR Hfa Hy) as X. refine (intEl_ext _ _ _ _ _ X). intros a b c. f_equal. exact (flux1 cf _ _ a b c).
  - rewrite (rep1_sim _ _ _ _ _ R Hz Hy). cbn [aAdd aZero algR]. rewrite sum_rsum, rsum_mulr. ring.
Qed.
Theorem C92_weak_neigh stT st fLN fT fa vId fId f t s0 s1 dofs : refMats cf stT st fLN fT -> (fa < nFa)%nat -> (forall v, vId = Some v -> (v < nOri el)%nat /\ (fId < nFa)%nat) ->
  length s0 = (nMdFa * nCr)%nat -> length s1 = (nMdFa * nCr)%nat -> length t = (nMd * nCr)%nat -> length dofs = (nMd * nCr)%nat ->
  exists o, surfNeighR fLN fT fa vId fId f t s0 s1 dofs = Ok o /\ length o = (nMd * nCr)%nat /\ forall z y, (z < nCr)%nat -> (y < nMd)%nat ->
    let behind := match vId with Some v => turned el v (onFace el fId (fn z t)) | None => onFace el fa (fn z t) end in
    intEl (faEl el) (fun a b c => f * behind a b c * onFace el fa (bas el n y) a b c) ((simS z o y - simS z dofs y) * sq y).
Proof.
  intros HR Hfa Hv L0 L1 Lt Lq. assert (FM : fluxMatrices cf fLN fT).
  { set (cf0 := Build_conf (cEl cf) (cSp cf) 1 (cCrs cf) (cRms cf)). destruct (C84_lowers cf0 stT st fLN fT) as (_ & _ & _ & _ & _ & X); [exact HR|cbn; lia|exact X]. }
  assert (B : forall v, vId = Some v -> (v * nFa + fId < nFluxN (cEl cf))%nat) by (intros v Ev; destruct (Hv v Ev); rewrite refOf_fluxN, <- refOf_fas; nia).
  destruct (C92_surface_neigh algR cf fLN fT fa vId fId f t s0 s1 dofs _ _ FM Hfa B L0 L1 (sim_rep1 nMd t Lt) (sim_rep1 nMd dofs Lq)) as (o & E & R). exists o. split; [exact E|]. split; [destruct R; lia|]. intros z y Hz Hy.
  rewrite (rep1_sim _ _ _ _ _ R Hz Hy). cbn [aAdd algR]. cbv zeta. match goal with |- intEl _ _ ((?a + ?b - ?a) * ?c) => replace ((a + b - a) * c) with (b * c) by ring end. rewrite surfS_surf.
  destruct vId as [v|].
  - destruct (Hv v eq_refl) as (Hv1 & Hf1). pose proof (C84_surface_neigh cf stT st fLN fT [f] fa v fId (fun _ => simS z t) 0 y HR Hfa Hf1 Hv1 Hy) as X. refine (intEl_ext _ _ _ _ _ X). intros a b c. f_equal. exact (flux1 cf _ _ a b c).
  - pose proof (C84_surface_local cf stT st fLN fT [f] fa (fun _ => simS z t) 0 y HR Hfa Hy) as X. refine (intEl_ext _ _ _ _ _ X). intros a b c. f_equal. exact (flux1 cf _ _ a b c).
Qed.

(** Amounts: mode 0 is the constant one, so V * D * simS z q 0 is the amount in an element of volume V * D (V: volume of the reference element, D: determinant of the mapping).
    [used]: scaling of the set-up (C91_upwind), [s]: minus the speed out of the element, or the speed into it.  Through a face go speed times area times mean of the time integrated DOFs on
    the face: own DOFs, or the ones behind the face. *)
Definition moved (times : R) : Prop := forall V Vf M s area D z t fa stT st fLN fT, intEl el (fun _ _ _ => 1) V -> intEl (faEl el) (fun _ _ _ => 1) Vf -> D <> 0 -> refMats cf stT st fLN fT -> (fa < nFa)%nat ->
  (intEl (faEl el) (onFace el fa (fn z t)) M -> V * D * surfS algR cf (s * AdvFsV.used el n area D) (nth fa fLN []) (nth fa fT []) (simS z t) 0 = times * (s * area * (M / Vf))) /\
  (forall v f, (v < nOri el)%nat -> (f < nFa)%nat -> intEl (faEl el) (turned el v (onFace el f (fn z t))) M ->
    V * D * surfS algR cf (s * AdvFsV.used el n area D) (nth (nFa + (v * nFa + f)) fLN []) (nth fa fT []) (simS z t) 0 = times * (s * area * (M / Vf))).
Lemma vol0 e V : (1 <= n)%nat -> intEl e (fun _ _ _ => 1) V -> V = nb e n 0.
Proof.
  intros Hn HV. apply (intEl_unique e _ _ _ HV). pose proof (bas_orth e n 0 0 ltac:(now apply nMds_pos) ltac:(now apply nMds_pos)) as B. cbn [Nat.eqb] in B. refine (intEl_ext _ _ _ _ _ B). intros. rewrite !bas_0 by exact Hn. ring.
Qed.
Lemma moved_ok : (1 <= n)%nat -> moved (if match cEl cf with TET4 => (n =? 1)%nat | _ => false end then 6 else 1).
Proof.
  intros Hn V Vf M s area D z t fa stT st fLN fT HV HVf HD HR Hfa. assert (P0 : (0 < nMd)%nat) by (rewrite refOf_md; now apply nMds_pos).
  pose proof (vol0 _ _ Hn HV) as V1. pose proof (vol0 _ _ Hn HVf) as V2. set (a := s * AdvFsV.used el n area D).
  assert (B1 : forall x y w, onFace el fa (bas el n 0) x y w = 1) by (intros x y w; unfold onFace; destruct (faToEl el fa x y) as ((x0 & x1) & x2); now apply bas_0).
  assert (G : forall S, S * sq 0%nat = a * M -> V * D * S = (if match cEl cf with TET4 => (n =? 1)%nat | _ => false end then 6 else 1) * (s * area * (M / Vf))).
  { intros S HS. rewrite V1. unfold nb. replace (sq 0%nat * D * S) with (D * (a * M)) by (rewrite <- HS; ring). rewrite V2. unfold nb, a, AdvFsV.used, AdvFsV.ratio. rewrite modeAt_0 by exact Hn.
    destruct (cEl cf); cbn [refOf faEl norm2 Nat.mul Nat.add INR]; try (field; exact HD). destruct (n =? 1)%nat; field; exact HD. }
  split.
  - intros HM. apply G. rewrite surfS_surf. pose proof (C84_surface_local cf stT st fLN fT [a] fa (fun _ => simS z t) 0 0 HR Hfa P0) as X. apply (intEl_unique (faEl el) _ _ _ X). refine (intEl_ext _ _ _ _ _ (intEl_scal _ a _ _ HM)).
    intros x y w. rewrite B1. rewrite Rmult_1_r. symmetry. exact (flux1 cf a (onFace el fa (fn z t)) x y w).
  - intros v f Hv Hf HM. apply G. rewrite surfS_surf. pose proof (C84_surface_neigh cf stT st fLN fT [a] fa v f (fun _ => simS z t) 0 0 HR Hfa Hf Hv P0) as X. apply (intEl_unique (faEl el) _ _ _ X). refine (intEl_ext _ _ _ _ _ (intEl_scal _ a _ _ HM)).
    intros x y w. rewrite B1. rewrite Rmult_1_r. symmetry. exact (flux1 cf a (turned el v (onFace el f (fn z t))) x y w).
Qed.
Theorem C92_amount : (1 <= n)%nat -> ~ (cEl cf = TET4 /\ n = 1%nat) -> moved 1.
Proof.
  intros Hn NT. pose proof (moved_ok Hn) as H. destruct (cEl cf) eqn:E; try exact H. destruct (Nat.eqb_spec n 1) as [E1|_]; [now destruct NT|exact H].
Qed.
(** For tetrahedra and the first order, six times as much is moved. *)
Theorem C92_amount_six : cEl cf = TET4 -> n = 1%nat -> moved 6.
Proof. intros E E1. assert (Hn : (1 <= n)%nat) by lia. pose proof (moved_ok Hn) as H. rewrite E, E1, Nat.eqb_refl in H. exact H. Qed.
End Reals.

(** Finite volumes on tetrahedra do not move the amounts of the equation: a state of one, a face of area one, a speed of one out of the element. *)
Theorem C92_amount_refuted : exists cf, (1 <= cSp cf)%nat /\ cEl cf = TET4 /\ ~ moved cf 1.
Proof.
  set (cf := Build_conf TET4 1 1 1 0). exists cf. split; [cbn; lia|]. split; [reflexivity|]. intros H. pose proof (C92_amount_six cf eq_refl eq_refl) as H6.
  destruct (C84_load cf) as (stT & st & fLN & fT & HR).
  assert (IV : forall e, exists V, intEl e (fun _ _ _ => 1%R) V /\ (V <> 0)%R).
  { intros e. exists (nb e 1 0). split; [|apply nb_nz]. pose proof (bas_orth e 1 0 0 ltac:(apply nMds_pos; lia) ltac:(apply nMds_pos; lia)) as B. cbn [Nat.eqb] in B. refine (intEl_ext _ _ _ _ _ B). intros. rewrite !bas_0 by lia. ring. }
  destruct (IV (refOf (cEl cf))) as (V & HV & NV). destruct (IV (faEl (refOf (cEl cf)))) as (Vf & HVf & NVf).
  assert (HM : intEl (faEl (refOf (cEl cf))) (onFace (refOf (cEl cf)) 0 (fn cf 0 [1%R])) Vf).
  { refine (intEl_ext _ _ _ _ _ HVf). intros x y w. unfold onFace. destruct (faToEl (refOf (cEl cf)) 0 x y) as ((x0 & x1) & x2). unfold fn, fieldS. change (nModes (cEl cf) (cSp cf)) with 1%nat. cbn [rsum at3]. rewrite (bas_0 (refOf (cEl cf)) (cSp cf)) by (cbn; lia). change (simS cf 0 [1%R] 0) with 1%R. ring. }
  destruct (H V Vf Vf (-1)%R 1%R 1%R 0%nat [1%R] 0%nat stT st fLN fT HV HVf R1_neq_R0 HR ltac:(cbn; lia)) as (E1 & _). destruct (H6 V Vf Vf (-1)%R 1%R 1%R 0%nat [1%R] 0%nat stT st fLN fT HV HVf R1_neq_R0 HR ltac:(cbn; lia)) as (E6 & _).
  specialize (E1 HM). specialize (E6 HM). rewrite E1 in E6. replace (Vf / Vf)%R with 1%R in E6 by (field; exact NVf). lra.
Qed.

(** *** Examples *)
(** the hypotheses of the real-number theorems: every order, every DOFs and star matrices of the right sizes *)
Example C92_ex_sizes o crs dT u v w (q : nat -> nat -> R) : (1 <= o)%nat -> let cf := Build_conf TET4 o o crs 0 in let k := (nModes TET4 o * crs)%nat in
  exists stT st fLN fT dofs scr der tInt der' t', refMats cf stT st fLN fT /\ (forall z y, (z < crs)%nat -> (y < nModes TET4 o)%nat -> simS cf z dofs y = q z y) /\
    length scr = k /\ sized (cTi cf) k der /\ length dofs = k /\ length tInt = k /\
    ckA 0%R 1%R Rplus Rmult Rdiv INR (aIsz algR) cf (storeT Ropp stT) dT [u; v; w] dofs scr der tInt = Ok (der', t') /\ forall z, (z < crs)%nat -> carried [u; v; w] (fn cf z dofs) dT (fn cf z t').
Proof.
  intros Ho cf k. destruct (C84_load cf) as (stT & st & fLN & fT & HR). destruct (rep_ex cf 1 (nModes TET4 o) (fun z _ y => q z y)) as (dofs & Rq). assert (Lq : length dofs = k) by (destruct Rq as (L & _); cbn [cf cCrs] in L; unfold k; lia).
  exists stT, st, fLN, fT, dofs, (repeat 0%R k), (repeat (repeat 0%R k) o), (repeat 0%R k).
  assert (Sd : sized (cTi cf) k (repeat (repeat 0%R k) o)) by (split; [apply repeat_length|]; intros i Hi; rewrite (nth_indep _ [] (repeat 0%R k)) by (rewrite repeat_length; exact Hi); rewrite nth_repeat; apply repeat_length).
  destruct (C92_transport cf stT st fLN fT dT [u; v; w] dofs (repeat 0%R k) (repeat (repeat 0%R k) o) (repeat 0%R k) HR (or_intror eq_refl) Ho eq_refl eq_refl (repeat_length _ _) Sd Lq (repeat_length _ _)) as (der' & t' & E & C & _).
  exists der', t'. split; [exact HR|]. split; [intros z y Hz Hy; exact (rep1_sim cf (nModes TET4 o) dofs q z y Rq Hz Hy)|]. split; [apply repeat_length|]. split; [exact Sd|]. split; [exact Lq|]. split; [apply repeat_length|]. split; [exact E|exact C].
Qed.
(** one triangle, first order polynomials: x is carried to x - t u *)
Example C92_ex_line a b c u t0 : forall r, carried [u; 0%R] (fun x _ _ => x) t0 r -> (r a b c = t0 * a - u * t0 * t0 / 2)%R.
Proof.
  intros r H. destruct (H a b c) as (U & U0 & UD & ->). cbn [nth] in UD.
  assert (D : forall t, derivable_pt_lim (fun t => (U t - (t * a - u * t * t / 2))%R) t 0%R).
  { intros t. replace 0%R with ((a - t * u) - (a - t * u))%R by ring. apply (derivable_pt_lim_minus U (fun t => (t * a - u * t * t / 2)%R)); [apply UD|].
    apply (dlim_ext (fun t => (a * t + (- u / 2) * (t * t))%R)); [intros; field|]. replace (a - t * u)%R with (a * 1 + (- u / 2) * (1 * t + t * 1))%R by field.
    apply (derivable_pt_lim_plus (fun t => (a * t)%R) (fun t => ((- u / 2) * (t * t))%R)); [apply (derivable_pt_lim_scal id), derivable_pt_lim_id|]. apply (derivable_pt_lim_scal (fun t => (t * t)%R)). apply (derivable_pt_lim_mult id id); apply derivable_pt_lim_id. }
  pose proof (zero_der _ D t0) as E. cbv beta in E. rewrite U0 in E. lra.
Qed.
(** the amounts: a quadrilateral and the second order meet the hypotheses of C92_amount *)
Example C92_ex_amount : exists stT st fLN fT t M, let cf := Build_conf QUAD4R 2 2 1 0 in refMats cf stT st fLN fT /\ intEl Line (onFace Quad 1 (fn cf 0 t)) M /\ M = 3%R /\
  (12 * surfS algR cf (-2 * AdvFsV.used Quad 2 4 12) (nth 1 fLN []) (nth 1 fT []) (simS cf 0 t) 0 = -24)%R.
Proof.
  set (cf := Build_conf QUAD4R 2 2 1 0). destruct (C84_load cf) as (stT & st & fLN & fT & HR). exists stT, st, fLN, fT, [3%R; 0%R; 0%R; 0%R], 3%R. cbv zeta.
  assert (IV : forall e, intEl e (fun _ _ _ => 1%R) (nb e 2 0)).
  { intros e. pose proof (bas_orth e 2 0 0 ltac:(apply nMds_pos; lia) ltac:(apply nMds_pos; lia)) as B. cbn [Nat.eqb] in B. refine (intEl_ext _ _ _ _ _ B). intros. rewrite !bas_0 by lia. ring. }
  assert (N1 : nb Line 2 0 = 1%R) by (unfold nb; rewrite modeAt_0 by lia; cbn [norm2 Nat.mul Nat.add INR]; lra). assert (N2 : nb Quad 2 0 = 1%R) by (unfold nb; rewrite modeAt_0 by lia; cbn [norm2 Nat.mul Nat.add INR]; lra).
  assert (HM : intEl Line (onFace Quad 1 (fn cf 0 [3%R; 0%R; 0%R; 0%R])) 3%R).
  { enough (X : intEl Line (onFace Quad 1 (fn cf 0 [3%R; 0%R; 0%R; 0%R])) (3 * nb Line 2 0)%R) by (now rewrite N1, Rmult_1_r in X). refine (intEl_ext _ _ _ _ _ (intEl_scal Line 3%R _ _ (IV Line))). intros x y w. unfold onFace. destruct (faToEl Quad 1 x y) as ((x0 & x1) & x2). cbn [at3]. unfold fn, fieldS.
    change (nModes (cEl cf) (cSp cf)) with 4%nat. cbn [rsum]. rewrite (bas_0 (refOf (cEl cf)) (cSp cf)) by (cbn; lia). change (simS cf 0 [3; 0; 0; 0]%R 0) with 3%R. change (simS cf 0 [3; 0; 0; 0]%R 1) with 0%R. change (simS cf 0 [3; 0; 0; 0]%R 2) with 0%R. change (simS cf 0 [3; 0; 0; 0]%R 3) with 0%R. ring. }
  split; [exact HR|]. split; [exact HM|]. split; [reflexivity|].
  destruct (C92_amount cf ltac:(cbn; lia) ltac:(intros (X & _); discriminate) (nb Quad 2 0) (nb Line 2 0) 3%R (-2)%R 4%R 12%R 0%nat [3%R; 0%R; 0%R; 0%R] 1%nat stT st fLN fT (IV Quad) (IV Line) ltac:(lra) HR ltac:(cbn; lia)) as (E & _).
  specialize (E HM). rewrite N1, N2 in E. transitivity (1 * 12 * surfS algR cf (-2 * AdvFsV.used (refOf (cEl cf)) (cSp cf) 4 12) (nth 1 fLN []) (nth 1 fT []) (simS cf 0 [3%R; 0%R; 0%R; 0%R]) 0)%R; [cbn [cf cEl cSp refOf]; ring|]. rewrite E. field.
Qed.
Print Assumptions C92_predict. Print Assumptions C92_volume. Print Assumptions C92_surface_local. Print Assumptions C92_surface_neigh. Print Assumptions C92_equation. Print Assumptions C92_transport. Print Assumptions C92_upstream.
Print Assumptions C92_weak_volume. Print Assumptions C92_weak_local. Print Assumptions C92_weak_neigh. Print Assumptions C92_amount. Print Assumptions C92_amount_six. Print Assumptions C92_amount_refuted.
