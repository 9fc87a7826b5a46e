(** Proofs about the net updates of internal boundaries, with and without friction. *)
From Coq Require Import List Arith Bool Lia Reals Lra Field.
From Verif Require Import Util MatMul ElGen Elastic ElSpec ElWave ElFlux ElTrafo ElMid ElMid2 ElFace Fault FaultSpec FaultMs FaultRot FaultFric.
From Verif Require Import Props_FwaveR.
Import ListNotations.
Open Scope R_scope.

Definition netR {A : Type} : nat -> @ibSolv R -> (list R -> (list R * list R) * A) -> R -> list R -> list R -> (list R * list R) * A := netUpdates 0 Rplus Rminus Rmult Ropp.
Definition ibFace3R (tol : R) (bnd : option (R * R * R * (R * R * R) * (R * R * R))) (l r : material) := ibFace3 0 1 Rplus Rminus Rmult Rdiv Ropp sqrt rltb tol bnd (toMat l) (toMat r).
Definition ibFace2R (tol : R) (bnd : option (R * R)) (l r : material) := ibFace2 0 1 Rplus Rminus Rmult Rdiv Ropp sqrt rltb tol bnd (toMat l) (toMat r).
Definition perturbR := perturb 0 Rplus Rminus Rmult Rdiv Ropp sqrt rltb.
Definition lswFaInitR (tol sProd : R) (l r : material) := lswFaInit 0 1 Rmult Rdiv Ropp sqrt rltb tol sProd (toMat l) (toMat r).

(** solver with given frame, jump and scalings *)
Definition solv3 (n s t : R * R * R) (j : list R) (l r : material) (cL cR : R) : @ibSolv R :=
  {| ibTm1 := tri3 n s t; ibJump := j; ibFluxL := scaleM Rmult cL (msFlux3R n s t l); ibFluxR := scaleM Rmult cR (msFlux3R n s t r) |}.
Definition solv2 (nx ny : R) (j : list R) (l r : material) (cL cR : R) : @ibSolv R :=
  {| ibTm1 := tri2 nx ny; ibJump := j; ibFluxL := scaleM Rmult cL (msFlux2R nx ny l); ibFluxR := scaleM Rmult cR (msFlux2R nx ny r) |}.

Lemma nth_scaleM c a i : nth i (scaleM Rmult c a) 0 = nth i a 0 * c.
Proof. unfold scaleM. rewrite <- (Rmult_0_l c) at 1. apply (map_nth (fun x => x * c)). Qed.
Lemma mv_scale m n a c e (q : list R) f : (forall x, f x = e * x) -> mv m n (scaleM Rmult c a) (map f q) = vscale (e * c) (mv m n a q).
Proof.
  intros F. apply nth_ext with 0 0; [unfold vscale; rewrite map_length, !len_mv; reflexivity|]. rewrite len_mv. intros i Hi. rewrite nth_vscale, !nth_mv by assumption. rewrite <- sum_scal. apply sum_ext. intros j Hj.
  rewrite nth_scaleM. assert (E : nth j (map f q) 0 = e * nth j q 0). { rewrite <- (Rmult_0_r e) at 1. rewrite <- (F 0), map_nth. apply F. } rewrite E. ring.
Qed.

Lemma net_unfold {A} n (so : @ibSolv R) (pe : list R -> (list R * list R) * A) dt qL qR zL zR x :
  pe (addJump n (ibJump so) (mv n n (ibTm1 so) qL) (mv n n (ibTm1 so) qR)) = ((zL, zR), x) ->
  netR n so pe dt qL qR = ((mv n n (ibFluxL so) (map (fun y => - y * dt) zL), mv n n (ibFluxR so) (map (fun y => y * dt) zR)), x).
Proof.
  intros H. unfold netR, netUpdates. cbv zeta. 
  match goal with |- context [pe ?ms] => change ms with (addJump n (ibJump so) (mv n n (ibTm1 so) qL) (mv n n (ibTm1 so) qR)) end. rewrite H. reflexivity.
Qed.

(** entries of a list as velocity and traction *)
Definition velOf3 n s t (z : list R) := inFrame3 n s t (nth 6 z 0) (nth 7 z 0) (nth 8 z 0).
Definition tracOf3 n s t (z : list R) := inFrame3 n s t (nth 0 z 0) (nth 3 z 0) (nth 5 z 0).
Definition velOf2 nx ny (z : list R) := inFrame2 nx ny (nth 3 z 0) (nth 4 z 0).
Definition tracOf2 nx ny (z : list R) := inFrame2 nx ny (nth 0 z 0) (nth 2 z 0).

Lemma net3 {A} n s t j l r cL cR (pe : list R -> (list R * list R) * A) dt qL qR zL zR x : orthonormal n s t -> solid l -> solid r -> length zL = 9%nat -> length zR = 9%nat ->
  pe (addJump 9 j (mv 9 9 (tri3 n s t) qL) (mv 9 9 (tri3 n s t) qR)) = ((zL, zR), x) ->
  netR 9 (solv3 n s t j l r cL cR) pe dt qL qR =
  ((vscale (- dt * cL) (fluxVT 3 l (co3 n) (velOf3 n s t zL) (tracOf3 n s t zL)), vscale (dt * cR) (fluxVT 3 r (co3 n) (velOf3 n s t zR) (tracOf3 n s t zR))), x).
Proof.
  intros O (PL & _) (PR & _) LL LR H. rewrite (net_unfold 9 (solv3 n s t j l r cL cR) pe dt qL qR zL zR x H). cbn [solv3 ibFluxL ibFluxR].
  rewrite (mv_scale 9 9 _ _ (- dt)) by (intros; ring). rewrite (mv_scale 9 9 _ _ dt) by (intros; ring). q9 zL LL. q9 zR LR. rewrite !msFlux3_ok by assumption. reflexivity.
Qed.
Lemma net2 {A} nx ny j l r cL cR (pe : list R -> (list R * list R) * A) dt qL qR zL zR x : unit2 nx ny -> solid l -> solid r -> length zL = 5%nat -> length zR = 5%nat ->
  pe (addJump 5 j (mv 5 5 (tri2 nx ny) qL) (mv 5 5 (tri2 nx ny) qR)) = ((zL, zR), x) ->
  netR 5 (solv2 nx ny j l r cL cR) pe dt qL qR =
  ((vscale (- dt * cL) (fluxVT 2 l (co2 nx ny) (velOf2 nx ny zL) (tracOf2 nx ny zL)), vscale (dt * cR) (fluxVT 2 r (co2 nx ny) (velOf2 nx ny zR) (tracOf2 nx ny zR))), x).
Proof.
  intros O (PL & _) (PR & _) LL LR H. rewrite (net_unfold 5 (solv2 nx ny j l r cL cR) pe dt qL qR zL zR x H). cbn [solv2 ibFluxL ibFluxR].
  rewrite (mv_scale 5 5 _ _ (- dt)) by (intros; ring). rewrite (mv_scale 5 5 _ _ dt) by (intros; ring). q5 zL LL. q5 zR LR. rewrite !msFlux2_ok by assumption. reflexivity.
Qed.

(** the middle state is that of the welded interface *)
Lemma ms_star3 p m n s t qP qM ms : orthonormal n s t -> length qP = 9%nat -> length qM = 9%nat -> msShape3 p m (mv 9 9 (tri3 n s t) qP) (mv 9 9 (tri3 n s t) qM) ms ->
  length ms = 9%nat /\ forall i, (i < 3)%nat -> velOf3 n s t ms i = starV 3 p m (co3 n) qP qM i /\ tracOf3 n s t ms i = starT 3 p m (co3 n) qP qM i.
Proof.
  intros O LP LM H. destruct (faceState3 n s t qP O LP) as (x1 & x2 & x4 & EL). destruct (faceState3 n s t qM O LM) as (y1 & y2 & y4 & ER). cbv zeta in EL, ER. rewrite EL, ER in H. cbv [msShape3] in H. cbn [nth] in H.
  split; [rewrite H; reflexivity|]. intros i Hi. unfold velOf3, tracOf3. rewrite H. cbn [nth]. unfold inFrame3, starV, starT. cbv zeta. rewrite !(perp_frame3 n s t) by auto. unfold par, wV, wT, Rdiv. split; ring.
Qed.
Lemma ms_star2 p m nx ny qP qM ms : unit2 nx ny -> length qP = 5%nat -> length qM = 5%nat -> msShape2 p m (mv 5 5 (tri2 nx ny) qP) (mv 5 5 (tri2 nx ny) qM) ms ->
  length ms = 5%nat /\ forall i, (i < 2)%nat -> velOf2 nx ny ms i = starV 2 p m (co2 nx ny) qP qM i /\ tracOf2 nx ny ms i = starT 2 p m (co2 nx ny) qP qM i.
Proof.
  intros O LP LM H. destruct (faceState2 nx ny qP O LP) as (x1 & EL). destruct (faceState2 nx ny qM O LM) as (y1 & ER). cbv zeta in EL, ER. rewrite EL, ER in H. cbv [msShape2] in H. cbn [nth] in H.
  split; [rewrite H; reflexivity|]. intros i Hi. unfold velOf2, tracOf2. rewrite H. cbn [nth]. unfold inFrame2, starV, starT. cbv zeta. rewrite !(perp_frame2 nx ny) by auto. unfold par, wV, wT, Rdiv. split; ring.
Qed.

(** ** Set-up *)
Definition scOf (area vol nSfs nScs : R) : R := area / nSfs / (vol / nScs).
Definition jump3 (pref : bool) (l r : material) : list R := if pref then jumpL3R l r else scaleM Rmult (- (1)) (jumpR3R r l).
Definition jump2 (pref : bool) (l r : material) : list R := if pref then jumpL2R l r else scaleM Rmult (- (1)) (jumpR2R r l).
Definition sgn (pref : bool) : R := if pref then 1 else - (1).

Lemma scale_sgn pref a v f c : ibScale 1 Rmult Rdiv Ropp pref a v f c = scOf a v f c * sgn pref.
Proof. unfold ibScale, scOf, sgn. destruct pref; ring. Qed.

Lemma ibFace3_ok tol bnd l r n s t area vL vR nSfs nScs pref n' s' t' : ibCrds3R tol bnd n s t = Ok (pref, (n', s', t')) ->
  ibFace3R tol bnd l r n s t area vL vR nSfs nScs = Ok (solv3 n' s' t' (jump3 pref l r) l r (scOf area vL nSfs nScs * sgn pref) (scOf area vR nSfs nScs * sgn pref)).
Proof.
  intros H. unfold ibFace3R, ibFace3. unfold ibCrds3R in H. rewrite H. cbn [bind]. destruct n' as [[nx ny] nz], s' as [[sx sy] sz], t' as [[tx ty] tz]. cbv beta iota zeta.
  rewrite !scale_sgn. unfold solv3, jump3, jumpL3R, jumpR3R, msFlux3R. destruct pref; reflexivity.
Qed.
Lemma ibFace2_ok tol bnd l r n area vL vR nSfs nScs pref : prefDirR tol (option_map (fun b => sprod2 Rplus Rmult b n) bnd) = Ok pref ->
  ibFace2R tol bnd l r n area vL vR nSfs nScs = Ok (solv2 (fst n * sgn pref) (snd n * sgn pref) (jump2 pref l r) l r (scOf area vL nSfs nScs * sgn pref) (scOf area vR nSfs nScs * sgn pref)).
Proof.
  intros H. unfold ibFace2R, ibFace2. unfold prefDirR in H. rewrite H. cbn [bind]. destruct n as [nx ny]. unfold sgn at 1 2.
  rewrite !scale_sgn. destruct pref; unfold solv2, jump2, jumpL2R, jumpR2R, msFlux2R; cbn [fst snd]; rewrite ?Rmult_1_r; reflexivity.
Qed.

(** ** Signs *)
Lemma flux_neg d m n q : dim d -> flux d m (neg n) q = vscale (- (1)) (flux d m n q).
Proof.
  intros D. assert (L : length (vscale (- (1)) (flux d m n q)) = nQt d) by (unfold vscale; rewrite map_length; now apply mk_length).
  apply (state_ext d); auto; [now apply mk_length| |].
  - intros i j Hi Hj. rewrite sig_vscale, !sig_flux by assumption. rewrite dot_neg. unfold strain, neg. field.
  - intros i Hi. rewrite vel_vscale, !vel_flux, traction_neg by assumption. unfold Rdiv. ring.
Qed.
Lemma vscale_vscale a b v : vscale a (vscale b v) = vscale (a * b) v.
Proof. unfold vscale. rewrite map_map. apply map_ext. intros. ring. Qed.
Lemma flip_flux3 pref n m q a b : vscale (a * (b * sgn pref)) (flux 3 m (co3 (flip pref n)) q) = vscale (a * b) (flux 3 m (co3 n) q).
Proof.
  unfold sgn, flip. destruct pref; [f_equal; ring|]. rewrite <- (flux_ext 3 m (neg (co3 n)) (co3 (nv n))) by (auto using co3_neg). rewrite flux_neg, vscale_vscale by auto. f_equal. ring.
Qed.
Lemma flip_flux2 pref nx ny m q a b : vscale (a * (b * sgn pref)) (flux 2 m (co2 (nx * sgn pref) (ny * sgn pref)) q) = vscale (a * b) (flux 2 m (co2 nx ny) q).
Proof.
  unfold sgn. destruct pref; [rewrite !Rmult_1_r; reflexivity|]. replace (nx * - (1)) with (- nx) by ring. replace (ny * - (1)) with (- ny) by ring.
  rewrite <- (flux_ext 2 m (neg (co2 nx ny)) (co2 (- nx) (- ny))) by (auto using co2_neg). rewrite flux_neg, vscale_vscale by auto. f_equal. ring.
Qed.

(** plus and minus side in terms of left and right *)
Definition pick {A : Type} (pref : bool) (a b : A) : A := if pref then a else b.

Lemma ms_shape3 pref l r n s t qL qR : solid l -> solid r -> length qL = 9%nat -> length qR = 9%nat ->
  msShape3 (pick pref l r) (pick pref r l) (mv 9 9 (tri3 n s t) (pick pref qL qR)) (mv 9 9 (tri3 n s t) (pick pref qR qL)) (addJump 9 (jump3 pref l r) (mv 9 9 (tri3 n s t) qL) (mv 9 9 (tri3 n s t) qR)).
Proof. intros L R LL LR. unfold pick, jump3. destruct pref; [apply jumpL3|apply jumpR3]; auto using len_mv. Qed.
Lemma ms_shape2 pref l r nx ny qL qR : solid l -> solid r -> length qL = 5%nat -> length qR = 5%nat ->
  msShape2 (pick pref l r) (pick pref r l) (mv 5 5 (tri2 nx ny) (pick pref qL qR)) (mv 5 5 (tri2 nx ny) (pick pref qR qL)) (addJump 5 (jump2 pref l r) (mv 5 5 (tri2 nx ny) qL) (mv 5 5 (tri2 nx ny) qR)).
Proof. intros L R LL LR. unfold pick, jump2. destruct pref; [apply jumpL2|apply jumpR2]; auto using len_mv. Qed.

Lemma riemann_pick3 pref l r n qL qR sL sR : riemann 3 l r (co3 n) qL qR sL sR ->
  riemann 3 (pick pref l r) (pick pref r l) (co3 (flip pref n)) (pick pref qL qR) (pick pref qR qL) (pick pref sL sR) (pick pref sR sL).
Proof. intros H. unfold pick, flip. destruct pref; [assumption|]. apply (riemann_ext 3 _ _ (neg (co3 n))); auto using co3_neg, riemann_swap. Qed.
Lemma riemann_pick2 pref l r nx ny qL qR sL sR : riemann 2 l r (co2 nx ny) qL qR sL sR ->
  riemann 2 (pick pref l r) (pick pref r l) (co2 (nx * sgn pref) (ny * sgn pref)) (pick pref qL qR) (pick pref qR qL) (pick pref sL sR) (pick pref sR sL).
Proof.
  intros H. unfold pick, sgn. destruct pref; [rewrite !Rmult_1_r; assumption|]. replace (nx * - (1)) with (- nx) by ring. replace (ny * - (1)) with (- ny) by ring.
  apply (riemann_ext 2 _ _ (neg (co2 nx ny))); auto using co2_neg, riemann_swap.
Qed.

(** ** Welded interfaces *)
Lemma interface3 pref l r n s t cL cR dt qL qR sL sR : orthonormal (flip pref n) s t -> solid l -> solid r -> length qL = 9%nat -> length qR = 9%nat -> riemann 3 l r (co3 n) qL qR sL sR ->
  netR 9 (solv3 (flip pref n) s t (jump3 pref l r) l r (cL * sgn pref) (cR * sgn pref)) (@dummySolv R) dt qL qR =
  ((vscale (- dt * cL) (flux 3 l (co3 n) sL), vscale (dt * cR) (flux 3 r (co3 n) sR)), false).
Proof.
  intros O SL SR LL LR Rm. pose proof (ms_shape3 pref l r (flip pref n) s t qL qR SL SR LL LR) as Sh.
  assert (SP : solid (pick pref l r)) by (unfold pick; destruct pref; assumption). assert (SM : solid (pick pref r l)) by (unfold pick; destruct pref; assumption).
  assert (LP : length (pick pref qL qR) = 9%nat) by (unfold pick; destruct pref; assumption). assert (LM : length (pick pref qR qL) = 9%nat) by (unfold pick; destruct pref; assumption).
  destruct (ms_star3 _ _ _ s t _ _ _ O LP LM Sh) as (L9 & ST). set (ms := addJump 9 _ _ _) in *.
  rewrite (net3 (flip pref n) s t (jump3 pref l r) l r _ _ (@dummySolv R) dt qL qR ms ms false O SL SR L9 L9 eq_refl).
  assert (Rm' := riemann_pick3 pref l r n qL qR sL sR Rm). assert (U := ortho_unit3 _ _ _ O). pose proof (riemann_star 3 _ _ _ _ _ _ _ dim3 U SP SM LP LM Rm') as S1.
  assert (V : forall i, (i < 3)%nat -> vel 3 sL i = velOf3 (flip pref n) s t ms i /\ vel 3 sR i = velOf3 (flip pref n) s t ms i /\
    traction 3 sL (co3 (flip pref n)) i = tracOf3 (flip pref n) s t ms i /\ traction 3 sR (co3 (flip pref n)) i = tracOf3 (flip pref n) s t ms i).
  { intros i Hi. destruct (ST i Hi) as (-> & ->). destruct (S1 i Hi) as (A & B). destruct Rm' as (_ & _ & _ & _ & TT & VV). rewrite <- A, <- B. specialize (TT i Hi). specialize (VV i Hi).
    unfold pick in *. destruct pref; auto. }
  rewrite <- (flux_VT 3 l (co3 (flip pref n)) sL) by (auto; intros; apply V; assumption). rewrite <- (flux_VT 3 r (co3 (flip pref n)) sR) by (auto; intros; apply V; assumption).
  rewrite !flip_flux3. reflexivity.
Qed.
Lemma interface2 pref l r nx ny cL cR dt qL qR sL sR : unit2 nx ny -> solid l -> solid r -> length qL = 5%nat -> length qR = 5%nat -> riemann 2 l r (co2 nx ny) qL qR sL sR ->
  netR 5 (solv2 (nx * sgn pref) (ny * sgn pref) (jump2 pref l r) l r (cL * sgn pref) (cR * sgn pref)) (@dummySolv R) dt qL qR =
  ((vscale (- dt * cL) (flux 2 l (co2 nx ny) sL), vscale (dt * cR) (flux 2 r (co2 nx ny) sR)), false).
Proof.
  intros O0 SL SR LL LR Rm. set (mx := nx * sgn pref). set (my := ny * sgn pref). assert (O : unit2 mx my) by (unfold mx, my, sgn, unit2 in *; destruct pref; lra).
  pose proof (ms_shape2 pref l r mx my qL qR SL SR LL LR) as Sh.
  assert (SP : solid (pick pref l r)) by (unfold pick; destruct pref; assumption). assert (SM : solid (pick pref r l)) by (unfold pick; destruct pref; assumption).
  assert (LP : length (pick pref qL qR) = 5%nat) by (unfold pick; destruct pref; assumption). assert (LM : length (pick pref qR qL) = 5%nat) by (unfold pick; destruct pref; assumption).
  destruct (ms_star2 _ _ _ _ _ _ _ O LP LM Sh) as (L9 & ST). set (ms := addJump 5 _ _ _) in *.
  rewrite (net2 mx my (jump2 pref l r) l r _ _ (@dummySolv R) dt qL qR ms ms false O SL SR L9 L9 eq_refl).
  assert (Rm' := riemann_pick2 pref l r nx ny qL qR sL sR Rm). fold mx my in Rm'. assert (U := unit2_dot _ _ O). pose proof (riemann_star 2 _ _ _ _ _ _ _ dim2 U SP SM LP LM Rm') as S1.
  assert (V : forall i, (i < 2)%nat -> vel 2 sL i = velOf2 mx my ms i /\ vel 2 sR i = velOf2 mx my ms i /\
    traction 2 sL (co2 mx my) i = tracOf2 mx my ms i /\ traction 2 sR (co2 mx my) i = tracOf2 mx my ms i).
  { intros i Hi. destruct (ST i Hi) as (-> & ->). destruct (S1 i Hi) as (A & B). destruct Rm' as (_ & _ & _ & _ & TT & VV). rewrite <- A, <- B. specialize (TT i Hi). specialize (VV i Hi).
    unfold pick in *. destruct pref; auto. }
  rewrite <- (flux_VT 2 l (co2 mx my) sL) by (auto; intros; apply V; assumption). rewrite <- (flux_VT 2 r (co2 mx my) sR) by (auto; intros; apply V; assumption).
  unfold mx, my. rewrite !flip_flux2. reflexivity.
Qed.
