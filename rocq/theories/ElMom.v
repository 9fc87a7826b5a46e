(** Momentum: columns of the flux solvers. *)
From Coq Require Import List Arith Bool Lia Reals Lra Field.
From Verif Require Import Util MeshConn MatMul ElGen Elastic ElSpec ElWave ElFlux ElTrafo ElMid ElMid2 ElAne ElFluid ElFace InitFs.
From Verif Require Props_FwaveR.
Import ListNotations.
Open Scope R_scope.

(** the solvers of a side of a face over the real numbers *)
Definition setUpFsR (el : elType) (l r : material) : @vec R -> @vec R -> @vec R -> bool -> res (@solvers R) :=
  setUpFs 0 1 Rplus Rminus Rmult Rdiv Ropp sqrt pow15R Props_FwaveR.rltb reqb el (toMat l) (toMat r).
(** unit normal, with orthogonal unit tangents in three dimensions *)
Definition frameOk (el : elType) (n s t : R * R * R) : Prop := if (nDis el =? 2)%nat then unit2 (fst (fst n)) (snd (fst n)) else orthonormal n s t.

Definition unitl (n j : nat) : list R := map (fun i => delta j i) (seq 0 n).
Lemma len_unitl n j : length (unitl n j) = n.
Proof. unfold unitl. now rewrite map_length, seq_length. Qed.
Lemma nth_unitl n j i : (i < n)%nat -> nth i (unitl n j) 0 = delta j i.
Proof.
  intros H. unfold unitl. rewrite (nth_indep _ 0 (delta j 0)) by (now rewrite map_length, seq_length). rewrite (map_nth (fun i => delta j i) (seq 0 n) 0%nat i). now rewrite seq_nth.
Qed.
Lemma mv_unit m n a i j : (i < m)%nat -> (j < n)%nat -> nth i (mv m n a (unitl n j)) 0 = nth (i * n + j) a 0.
Proof.
  intros Hi Hj. rewrite nth_mv by exact Hi. rewrite (sum_ext n _ (fun k => delta j k * nth (i * n + k) a 0)) by (intros k Hk; rewrite nth_unitl by exact Hk; ring). now apply (sum_delta n j (fun k => nth (i * n + k) a 0)).
Qed.
Lemma mv_zeros m n a i : (i < m)%nat -> nth i (mv m n a (zeros n)) 0 = 0.
Proof. intros Hi. rewrite nth_mv by exact Hi. apply sum_zero. intros k Hk. unfold zeros. rewrite nth_repeat. ring. Qed.
Lemma app_own n e i j : (i < n)%nat -> (j < n)%nat -> nth i (appFs n n e (unitl n j) (zeros n)) 0 = nth (i * n + j) (fst e) 0.
Proof. intros Hi Hj. unfold appFs. rewrite nth_vadd by (now rewrite !len_mv). rewrite mv_unit, mv_zeros by assumption. ring. Qed.
Lemma app_ngb n e i j : (i < n)%nat -> (j < n)%nat -> nth i (appFs n n e (zeros n) (unitl n j)) 0 = nth (i * n + j) (snd e) 0.
Proof. intros Hi Hj. unfold appFs. rewrite nth_vadd by (now rewrite !len_mv). rewrite mv_unit, mv_zeros by assumption. ring. Qed.
Lemma app_both n e i j : (i < n)%nat -> (j < n)%nat -> nth i (appFs n n e (unitl n j) (unitl n j)) 0 = nth (i * n + j) (fst e) 0 + nth (i * n + j) (snd e) 0.
Proof. intros Hi Hj. unfold appFs. rewrite nth_vadd by (now rewrite !len_mv). rewrite !mv_unit by assumption. ring. Qed.

(** one side of a face between two solids *)
Lemma side3 l r n s t : solid l -> solid r -> orthonormal n s t -> exists e a, setUpFs3R l r n s t false = Ok (e, a) /\
  forall qL qR sL sR, length qL = 9%nat -> length qR = 9%nat -> riemann 3 l r (co3 n) qL qR sL sR -> appFs 9 9 e qL qR = flux 3 l (co3 n) sL.
Proof.
  intros L R O. destruct (face3 l r n s t L R O) as (e & a & e' & a' & E & P). unfold faceFs3R, faceFs3 in E. fold (setUpFs3R l r n s t false) in E. apply bind_ok in E. destruct E as (x & E & E2).
  apply bind_ok in E2. destruct E2 as (y & _ & E2). injection E2 as -> ->. exists e, a. split; [assumption|]. intros qL qR sL sR HL HR Rm. now destruct (P qL qR sL sR HL HR Rm) as [[-> _] _].
Qed.
Lemma side2 l r nx ny : solid l -> solid r -> unit2 nx ny -> exists e a, setUpFs2R l r nx ny false = Ok (e, a) /\
  forall qL qR sL sR, length qL = 5%nat -> length qR = 5%nat -> riemann 2 l r (co2 nx ny) qL qR sL sR -> appFs 5 5 e qL qR = flux 2 l (co2 nx ny) sL.
Proof.
  intros L R O. destruct (face2 l r nx ny L R O) as (e & a & e' & a' & E & P). unfold faceFs2R, faceFs2 in E. fold (setUpFs2R l r nx ny false) in E. apply bind_ok in E. destruct E as (x & E & E2).
  apply bind_ok in E2. destruct E2 as (y & _ & E2). injection E2 as -> ->. exists e, a. split; [assumption|]. intros qL qR sL sR HL HR Rm. now destruct (P qL qR sL sR HL HR Rm) as [[-> _] _].
Qed.

(** columns of two solvers whose fluxes are those of the solution of the Riemann problem *)
Lemma columns d l r n n' e e' i j : dim d -> (forall i, (i < d)%nat -> neg n i = n' i) -> dot d n n = 1 -> solid l -> solid r ->
  (forall qL qR sL sR, length qL = nQt d -> length qR = nQt d -> riemann d l r n qL qR sL sR -> appFs (nQt d) (nQt d) e qL qR = flux d l n sL) ->
  (forall qL qR sL sR, length qL = nQt d -> length qR = nQt d -> riemann d r l n' qL qR sL sR -> appFs (nQt d) (nQt d) e' qL qR = flux d r n' sL) ->
  (i < d)%nat -> (j < nQt d)%nat -> rho l * nth ((nSt d + i) * nQt d + j) (fst e) 0 + rho r * nth ((nSt d + i) * nQt d + j) (snd e') 0 = 0.
Proof.
  intros D N U L R P P' Hi Hj. assert (Hx : (nSt d + i < nQt d)%nat) by (unfold nQt; lia). assert (LZ : length (zeros (nQt d)) = nQt d) by apply repeat_length.
  destruct (riemann_exists d l r n (unitl (nQt d) j) (zeros (nQt d)) D U L R (len_unitl _ _) LZ) as (sL & sR & Rm).
  pose proof (riemann_ext d r l (neg n) n' _ _ _ _ D N (riemann_swap d l r n _ _ _ _ D Rm)) as Rm'.
  rewrite <- (app_own (nQt d)), <- (app_ngb (nQt d)) by assumption. rewrite (P _ _ _ _ (len_unitl _ _) LZ Rm), (P' _ _ _ _ LZ (len_unitl _ _) Rm').
  change (rho l * vel d (flux d l n sL) i + rho r * vel d (flux d r n' sR) i = 0). rewrite <- (flux_ext d r (neg n) n') by assumption. rewrite !vel_flux, traction_neg by auto.
  destruct Rm as (_ & _ & _ & _ & Tr & _). rewrite (Tr i Hi). destruct L as [L _], R as [R _]. field. lra.
Qed.
Lemma columnsF d l n e i j : dim d -> dot d n n = 1 -> solid l ->
  (forall q f, length q = nQt d -> freeState d l n q f -> appFs (nQt d) (nQt d) e q q = flux d l n f) ->
  (i < d)%nat -> (j < nQt d)%nat -> nth ((nSt d + i) * nQt d + j) (fst e) 0 + nth ((nSt d + i) * nQt d + j) (snd e) 0 = 0.
Proof.
  intros D U L P Hi Hj. assert (Hx : (nSt d + i < nQt d)%nat) by (unfold nQt; lia).
  destruct (free_exists d l n (unitl (nQt d) j) D U L (len_unitl _ _)) as (f & F). rewrite <- (app_both (nQt d)) by assumption. rewrite (P _ _ (len_unitl _ _) F).
  change (vel d (flux d l n f) i = 0). rewrite vel_flux by auto. destruct F as (_ & _ & F). rewrite F by exact Hi. destruct L as [L _]. field. lra.
Qed.

Lemma nQt2 : nQt 2 = 5%nat. Proof. reflexivity. Qed.
Lemma nQt3 : nQt 3 = 9%nat. Proof. reflexivity. Qed.
(** both sides of a face, whose tangents may differ *)
Lemma mom_face el l r n s t s' t' x x' i j : let d := nDis el in solid l -> solid r -> frameOk el n s t -> frameOk el (nv n) s' t' ->
  setUpFsR el l r n s t false = Ok x -> setUpFsR el r l (nv n) s' t' false = Ok x' -> (i < d)%nat -> (j < nQt d)%nat ->
  rho l * nth ((nSt d + i) * nQt d + j) (fst (fst x)) 0 + rho r * nth ((nSt d + i) * nQt d + j) (snd (fst x')) 0 = 0.
Proof.
  intros d L R F F'. unfold frameOk, setUpFsR, setUpFs, d in *. assert (D : nDis el = 2%nat \/ nDis el = 3%nat) by (destruct el; cbn; auto). destruct D as [E|E]; rewrite E in *; cbn [Nat.eqb] in *.
  - destruct n as [[nx ny] nz]. cbn [vopp fst snd] in *. destruct (side2 l r nx ny L R F) as (e & a & E1 & P), (side2 r l (- nx) (- ny) R L F') as (e' & a' & E2 & P'). unfold setUpFs2R in *. rewrite E1, E2.
    intros X X'. injection X as <-. injection X' as <-. cbn [fst]. intros Hi Hj. apply (columns 2 l r (co2 nx ny) (co2 (- nx) (- ny)) e e' i j dim2 (co2_neg nx ny) (unit2_dot _ _ F) L R); assumption.
  - destruct (side3 l r n s t L R F) as (e & a & E1 & P), (side3 r l (nv n) s' t' R L F') as (e' & a' & E2 & P'). unfold setUpFs3R in *. rewrite E1, E2.
    intros X X'. injection X as <-. injection X' as <-. cbn [fst]. intros Hi Hj. apply (columns 3 l r (co3 n) (co3 (nv n)) e e' i j dim3 (co3_neg n) (ortho_unit3 _ _ _ F) L R); assumption.
Qed.
Lemma mom_free el l n s t x i j : let d := nDis el in solid l -> frameOk el n s t -> setUpFsR el l l n s t true = Ok x -> (i < d)%nat -> (j < nQt d)%nat ->
  nth ((nSt d + i) * nQt d + j) (fst (fst x)) 0 + nth ((nSt d + i) * nQt d + j) (snd (fst x)) 0 = 0.
Proof.
  intros d L F. unfold frameOk, setUpFsR, setUpFs, d in *. assert (D : nDis el = 2%nat \/ nDis el = 3%nat) by (destruct el; cbn; auto). destruct D as [E|E]; rewrite E in *; cbn [Nat.eqb] in *.
  - destruct (free2 l _ _ L F) as (e & a & E1 & P). unfold setUpFs2R in *. rewrite E1. intros X. injection X as <-. cbn [fst]. intros Hi Hj. apply (columnsF 2 l _ e i j dim2 (unit2_dot _ _ F) L); try assumption.
    intros q f Hq Hf. now apply P.
  - destruct (free3 l n s t L F) as (e & a & E1 & P). unfold setUpFs3R in *. rewrite E1. intros X. injection X as <-. cbn [fst]. intros Hi Hj. apply (columnsF 3 l _ e i j dim3 (ortho_unit3 _ _ _ F) L); try assumption.
    intros q f Hq Hf. now apply P.
Qed.

(** normal of an element's face *)
Definition nvec (el : elType) (n : R * R * R) : nat -> R := if (nDis el =? 2)%nat then co2 (fst (fst n)) (snd (fst n)) else co3 n.
(** The solvers [x] of a face with normal [n], seen from the element with material [l], times the own and the neighbouring data are [c] times the exact flux of the
    middle state: the state of the free surface or the solution of the Riemann problem with material [r] behind the face.  The anelastic ones are those of the strains. *)
Definition exactSide (el : elType) (l r : material) (n : R * R * R) (free : bool) (c : R) (x : @solvers R) : Prop :=
  let d := nDis el in
  if free then forall q f, length q = nQt d -> freeState d l (nvec el n) q f ->
    appFs (nQt d) (nQt d) (fst x) q q = vscale c (flux d l (nvec el n) f) /\ appFs (nSt d) (nQt d) (snd x) q q = vscale c (strainFlux d (nvec el n) (vel d f))
  else forall qL qR sL sR, length qL = nQt d -> length qR = nQt d -> riemann d l r (nvec el n) qL qR sL sR ->
    appFs (nQt d) (nQt d) (fst x) qL qR = vscale c (flux d l (nvec el n) sL) /\ appFs (nSt d) (nQt d) (snd x) qL qR = vscale c (strainFlux d (nvec el n) (vel d sL)).

Lemma app_scale m n c (s : list R * list R) q q' : appFs m n (map (fun y => y * c) (fst s), map (fun y => y * c) (snd s)) q q' = vscale c (appFs m n s q q').
Proof.
  assert (N : forall k (a : list R), nth k (map (fun y => y * c) a) 0 = c * nth k a 0).
  { intros k a. pose proof (map_nth (fun y => y * c) a 0 k) as H. cbv beta in H. rewrite Rmult_0_l in H. rewrite H. ring. }
  unfold appFs. cbn [fst snd]. unfold vadd, mv, vscale. set (f1 := fun i => sum n (fun j => nth (i * n + j) (map _ (fst s)) 0 * nth j q 0)). set (f2 := fun i => sum n (fun j => nth (i * n + j) (map _ (snd s)) 0 * nth j q' 0)).
  set (g1 := fun i => sum n (fun j => nth (i * n + j) (fst s) 0 * nth j q 0)). set (g2 := fun i => sum n (fun j => nth (i * n + j) (snd s) 0 * nth j q' 0)).
  assert (E1 : forall i, f1 i = c * g1 i). { intros i. unfold f1, g1. rewrite <- sum_scal. apply sum_ext. intros j Hj. rewrite N. ring. }
  assert (E2 : forall i, f2 i = c * g2 i). { intros i. unfold f2, g2. rewrite <- sum_scal. apply sum_ext. intros j Hj. rewrite N. ring. }
  induction (seq 0 m) as [|i l IH]; [reflexivity|]. cbn [map combine fst snd]. rewrite IH, E1, E2. f_equal. ring.
Qed.
Lemma scaleFs_exact el l r n free c x : exactSide el l r n free 1 x -> exactSide el l r n free c (scaleFs Rmult c x).
Proof.
  assert (O : forall v, vscale c (vscale 1 v) = vscale c v) by (intros v; unfold vscale; rewrite map_map; apply map_ext; intros; ring).
  unfold exactSide, scaleFs. cbn [fst snd]. destruct free; intros H.
  - intros q f Hq Hf. destruct (H q f Hq Hf) as (H1 & H2). rewrite !app_scale, H1, H2, !O. now split.
  - intros qL qR sL sR HL HR Rm. destruct (H qL qR sL sR HL HR Rm) as (H1 & H2). rewrite !app_scale, H1, H2, !O. now split.
Qed.
Lemma setUp_exists el l r n s t free : solid l -> solid r -> exists x, setUpFsR el l r n s t free = Ok x.
Proof.
  intros L R. unfold setUpFsR, setUpFs. destruct (nDis el =? 2)%nat.
  - destruct (setUp2S l r (fst (fst n)) (snd (fst n)) free L R) as (e & a & E & _). unfold setUpFs2R in E. eauto.
  - destruct (setUp3 l r n s t free) as (e & a & E & _). unfold setUpFs3R in E. eauto.
Qed.
Lemma setUp_exact el l r n s t (free : bool) x : solid l -> solid r -> (free = true -> r = l) -> frameOk el n s t -> setUpFsR el l r n s t free = Ok x -> exactSide el l r n free 1 x.
Proof.
  intros L R Fr F. assert (O : forall v, vscale 1 v = v) by (intros v; unfold vscale; rewrite <- (map_id v) at 2; apply map_ext; intros; ring).
  unfold exactSide, frameOk, nvec, setUpFsR, setUpFs in *. assert (D : nDis el = 2%nat \/ nDis el = 3%nat) by (destruct el; cbn; auto). destruct D as [E|E]; rewrite E in *; cbn [Nat.eqb] in *; destruct free.
  - rewrite (Fr eq_refl). destruct (free2 l _ _ L F) as (e & a & E1 & P). unfold setUpFs2R in *. rewrite E1. intros X. injection X as <-. cbn [fst snd]. intros q f Hq Hf. rewrite !O. now apply P.
  - destruct (face2 l r _ _ L R F) as (e & a & e' & a' & E1 & P). unfold faceFs2R, faceFs2 in E1. apply bind_ok in E1. destruct E1 as (y & E1 & E2). apply bind_ok in E2. destruct E2 as (y' & _ & E2). injection E2 as -> ->.
    rewrite E1. intros X. injection X as <-. cbn [fst snd]. intros qL qR sL sR HL HR Rm. rewrite !O. destruct (P qL qR sL sR HL HR Rm) as ((P1 & _) & (P2 & _)). now split.
  - rewrite (Fr eq_refl). destruct (free3 l n s t L F) as (e & a & E1 & P). unfold setUpFs3R in *. rewrite E1. intros X. injection X as <-. cbn [fst snd]. intros q f Hq Hf. rewrite !O. now apply P.
  - destruct (face3 l r n s t L R F) as (e & a & e' & a' & E1 & P). unfold faceFs3R, faceFs3 in E1. apply bind_ok in E1. destruct E1 as (y & E1 & E2). apply bind_ok in E2. destruct E2 as (y' & _ & E2). injection E2 as -> ->.
    rewrite E1. intros X. injection X as <-. cbn [fst snd]. intros qL qR sL sR HL HR Rm. rewrite !O. destruct (P qL qR sL sR HL HR Rm) as ((P1 & _) & (P2 & _)). now split.
Qed.
