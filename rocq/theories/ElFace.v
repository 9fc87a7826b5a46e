(** Proofs about the solvers of a face: set-up in the code's entry points. *)
From Coq Require Import List Arith Bool Lia Reals Lra Field.
From Verif Require Import Util MatMul ElGen Elastic ElSpec ElWave ElFlux ElTrafo ElMid ElMid2 ElAne ElFluid.
From Verif Require Props_FwaveR.
Import ListNotations.
Open Scope R_scope.

Definition reqb (a b : R) : bool := if Req_EM_T a b then true else false.
Definition toMat (m : material) : mat := {| mRho := rho m; mLam := lam m; mMu := mu m |}.
(** the code's functions over the real numbers *)
Definition setUpFs2R l r := setUpFs2 0 1 Rplus Rminus Rmult Rdiv Ropp sqrt pow15R Props_FwaveR.rltb reqb (toMat l) (toMat r).
Definition setUpFs3R l r := setUpFs3 0 1 Rplus Rminus Rmult Rdiv Ropp sqrt (toMat l) (toMat r).
Definition faceFs2R l r := faceFs2 0 1 Rplus Rminus Rmult Rdiv Ropp sqrt pow15R Props_FwaveR.rltb reqb (toMat l) (toMat r).
Definition faceFs3R l r := faceFs3 0 1 Rplus Rminus Rmult Rdiv Ropp sqrt (toMat l) (toMat r).
(** flux of the pair (fl, fr) of solvers with m rows and n columns *)
Definition appFs (m n : nat) (fs : list R * list R) (q q' : list R) : list R := vadd (mv m n (fst fs) q) (mv m n (snd fs) q').
Notation nv := (vopp Ropp).

Lemma setUp3 l r n s t fr : exists e a, setUpFs3R l r n s t fr = Ok (e, a) /\
  (forall q q', appFs 9 9 e q q' = vadd (mv 9 9 (tr3 n s t) (mv 9 9 (flMid3R l r) (mv 9 9 (tri3 n s t) q)))
     (mv 9 9 (tr3 n s t) (mv 9 9 (frMid3R l r) (if fr then mirror [0; 3; 5]%nat (mv 9 9 (tri3 n s t) q') else mv 9 9 (tri3 n s t) q')))) /\
  (forall q q', appFs 6 9 a q q' = vadd (mv 6 6 (corner 0 9 6 (tr3 n s t)) (mv 6 9 (fst (midA3R l r)) (mv 9 9 (tri3 n s t) q)))
     (mv 6 6 (corner 0 9 6 (tr3 n s t)) (mv 6 9 (snd (midA3R l r)) (if fr then mirror [0; 3; 5]%nat (mv 9 9 (tri3 n s t) q') else mv 9 9 (tri3 n s t) q')))).
Proof.
  destruct n as [[nx ny] nz], s as [[sx sy] sz], t as [[tx ty] tz]. unfold setUpFs3R, setUpFs3, setupFlMid3, setupFrMid3. cbn [bind].
  destruct (fsOf_ok 9 9 [0; 3; 5]%nat (tr3 (nx, ny, nz) (sx, sy, sz) (tx, ty, tz)) (tri3 (nx, ny, nz) (sx, sy, sz) (tx, ty, tz)) (flMid3R l r) (frMid3R l r) fr) as (fl & frr & E & _ & _ & P); try reflexivity.
  { repeat constructor; cbn; intuition discriminate. } { cbn. intuition lia. }
  destruct (fsOf_ok 6 9 [0; 3; 5]%nat (corner 0 9 6 (tr3 (nx, ny, nz) (sx, sy, sz) (tx, ty, tz))) (tri3 (nx, ny, nz) (sx, sy, sz) (tx, ty, tz)) (fst (midA3R l r)) (snd (midA3R l r)) fr) as (al & ar & E2 & _ & _ & P2); try reflexivity.
  { repeat constructor; cbn; intuition discriminate. } { cbn. intuition lia. }
  cbn [co3 fst snd] in *. unfold flMid3R, frMid3R, midA3R in *. cbn [toMat mRho mLam mMu]. rewrite E. cbn [bind].
  destruct (fsMidA3 _ _ _ _ _ _ _ _ _ _ _ _ _) as [a b]. cbn [fst snd] in *. rewrite E2. cbn [bind].
  exists (fl, frr), (al, ar). split; [reflexivity|]. unfold appFs. cbn [fst snd]. split; intros q q'.
  - destruct (P q) as [-> _], (P q') as [_ ->]. reflexivity.
  - destruct (P2 q) as [-> _], (P2 q') as [_ ->]. reflexivity.
Qed.

Lemma setUp2 l r nx ny fr fl0 fr0 : setupFlMid2 0 1 Rplus Rmult Rdiv Ropp sqrt pow15R Props_FwaveR.rltb reqb (rho l) (rho r) (lam l) (lam r) (mu l) (mu r) = Ok fl0 ->
  setupFrMid2 0 1 Rplus Rmult Rdiv Ropp sqrt pow15R Props_FwaveR.rltb reqb (rho l) (rho r) (lam l) (lam r) (mu l) (mu r) = Ok fr0 ->
  length fl0 = 25%nat -> length fr0 = 25%nat ->
  exists e a, setUpFs2R l r nx ny fr = Ok (e, a) /\
  (forall q q', appFs 5 5 e q q' = vadd (mv 5 5 (tr2 nx ny) (mv 5 5 fl0 (mv 5 5 (tri2 nx ny) q)))
     (mv 5 5 (tr2 nx ny) (mv 5 5 fr0 (if fr then mirror [0; 2]%nat (mv 5 5 (tri2 nx ny) q') else mv 5 5 (tri2 nx ny) q')))) /\
  (forall q q', appFs 3 5 a q q' = vadd (mv 3 3 (corner 0 5 3 (tr2 nx ny)) (mv 3 5 (fst (midA2R l r)) (mv 5 5 (tri2 nx ny) q)))
     (mv 3 3 (corner 0 5 3 (tr2 nx ny)) (mv 3 5 (snd (midA2R l r)) (if fr then mirror [0; 2]%nat (mv 5 5 (tri2 nx ny) q') else mv 5 5 (tri2 nx ny) q')))).
Proof.
  intros EL ER LL LR. unfold setUpFs2R, setUpFs2.
  destruct (fsOf_ok 5 5 [0; 2]%nat (tr2 nx ny) (tri2 nx ny) fl0 fr0 fr) as (fl & frr & E & _ & _ & P); try reflexivity; try assumption.
  { repeat constructor; cbn; intuition discriminate. } { cbn. intuition lia. }
  destruct (fsOf_ok 3 5 [0; 2]%nat (corner 0 5 3 (tr2 nx ny)) (tri2 nx ny) (fst (midA2R l r)) (snd (midA2R l r)) fr) as (al & ar & E2 & _ & _ & P2); try reflexivity.
  { repeat constructor; cbn; intuition discriminate. } { cbn. intuition lia. }
  unfold midA2R in *. cbn [toMat mRho mLam mMu]. rewrite EL, ER. cbn [bind]. rewrite E. cbn [bind].
  destruct (fsMidA2 _ _ _ _ _ _ _ _ _ _ _ _ _) as [a b]. cbn [fst snd] in *. rewrite E2. cbn [bind].
  exists (fl, frr), (al, ar). split; [reflexivity|]. unfold appFs. cbn [fst snd]. split; intros q q'.
  - destruct (P q) as [-> _], (P q') as [_ ->]. reflexivity.
  - destruct (P2 q) as [-> _], (P2 q') as [_ ->]. reflexivity.
Qed.

Lemma rltb_true a b : a < b -> Props_FwaveR.rltb a b = true.
Proof. intros H. unfold Props_FwaveR.rltb. destruct (Rlt_dec a b); [reflexivity|lra]. Qed.
Lemma rltb_false a b : b <= a -> Props_FwaveR.rltb a b = false.
Proof. intros H. unfold Props_FwaveR.rltb. destruct (Rlt_dec a b); [lra|reflexivity]. Qed.
Lemma reqb_refl a : reqb a a = true.
Proof. unfold reqb. destruct (Req_EM_T a a); [reflexivity|congruence]. Qed.
Lemma reqb_false a b : a <> b -> reqb a b = false.
Proof. unfold reqb. destruct (Req_EM_T a b); [congruence|reflexivity]. Qed.

Lemma setUp2S l r nx ny fr : solid l -> solid r -> exists e a, setUpFs2R l r nx ny fr = Ok (e, a) /\
  (forall q q', appFs 5 5 e q q' = vadd (mv 5 5 (tr2 nx ny) (mv 5 5 (flMid2R l r) (mv 5 5 (tri2 nx ny) q)))
     (mv 5 5 (tr2 nx ny) (mv 5 5 (frMid2R l r) (if fr then mirror [0; 2]%nat (mv 5 5 (tri2 nx ny) q') else mv 5 5 (tri2 nx ny) q')))) /\
  (forall q q', appFs 3 5 a q q' = vadd (mv 3 3 (corner 0 5 3 (tr2 nx ny)) (mv 3 5 (fst (midA2R l r)) (mv 5 5 (tri2 nx ny) q)))
     (mv 3 3 (corner 0 5 3 (tr2 nx ny)) (mv 3 5 (snd (midA2R l r)) (if fr then mirror [0; 2]%nat (mv 5 5 (tri2 nx ny) q') else mv 5 5 (tri2 nx ny) q')))).
Proof.
  intros (_ & ML & _) (_ & MR & _). apply setUp2; try reflexivity; unfold setupFlMid2, setupFrMid2; rewrite (rltb_true 0 (mu l)), (rltb_true 0 (mu r)) by assumption; reflexivity.
Qed.
Lemma setUp2F l r nx ny fr : fluid l -> fluid r -> exists e a, setUpFs2R l r nx ny fr = Ok (e, a) /\
  (forall q q', appFs 5 5 e q q' = vadd (mv 5 5 (tr2 nx ny) (mv 5 5 (flAco2R l r) (mv 5 5 (tri2 nx ny) q)))
     (mv 5 5 (tr2 nx ny) (mv 5 5 (frAco2R l r) (if fr then mirror [0; 2]%nat (mv 5 5 (tri2 nx ny) q') else mv 5 5 (tri2 nx ny) q')))).
Proof.
  intros (_ & ML & _) (_ & MR & _). destruct (setUp2 l r nx ny fr (flAco2R l r) (frAco2R l r)) as (e & a & E & P & _); try reflexivity.
  1-2: unfold setupFlMid2, setupFrMid2; rewrite (rltb_false 0 (mu l)) by lra; rewrite ML, MR, reqb_refl; cbn [andb]; unfold flAco2R, frAco2R; rewrite ML, MR; reflexivity.
  exists e, a. split; assumption.
Qed.
(** a fluid next to a solid *)
Lemma setUp2X l r nx ny fr : (fluid l /\ solid r) \/ (solid l /\ fluid r) -> setUpFs2R l r nx ny fr = Er Echeck.
Proof.
  intros H. unfold setUpFs2R, setUpFs2, setupFlMid2. cbn [toMat mRho mLam mMu].
  destruct H as [((_ & ML & _) & (_ & MR & _))|((_ & ML & _) & (_ & MR & _))].
  - rewrite (rltb_false 0 (mu l)) by lra. rewrite (reqb_false (mu r)) by lra. rewrite andb_false_r. reflexivity.
  - rewrite (rltb_false 0 (mu r)) by lra. rewrite (reqb_false (mu l)) by lra. rewrite andb_false_r. reflexivity.
Qed.

(** normals only matter in the first d coordinates *)
Lemma traction_ext d q n n' i : (forall i, (i < d)%nat -> n i = n' i) -> traction d q n i = traction d q n' i.
Proof. intros H. unfold traction. apply sum_ext. intros j Hj. now rewrite H. Qed.
Lemma flux_ext d m n n' q : dim d -> (forall i, (i < d)%nat -> n i = n' i) -> flux d m n q = flux d m n' q.
Proof.
  intros D H. apply (state_ext d); try apply mk_length; try assumption.
  - intros i j Hi Hj. rewrite !sig_flux by assumption. rewrite (dot_ext d (vel d q) n (vel d q) n') by auto. unfold strain. now rewrite !H.
  - intros i Hi. rewrite !vel_flux by assumption. now rewrite (traction_ext d q n n').
Qed.
Lemma entering_ext d m n n' dq : dim d -> (forall i, (i < d)%nat -> n i = n' i) -> entering d m n dq -> entering d m n' dq.
Proof. intros D H (wp & ws & A & B & C & E & F). exists wp, ws. rewrite <- !(flux_ext d m n n') by assumption. auto. Qed.
Lemma riemann_ext d l r n n' qL qR sL sR : dim d -> (forall i, (i < d)%nat -> n i = n' i) -> riemann d l r n qL qR sL sR -> riemann d l r n' qL qR sL sR.
Proof.
  intros D H (A & B & C & E & F & G). split; [assumption|]. split; [assumption|]. split; [now apply (entering_ext d l n n')|].
  split; [apply (entering_ext d r (neg n)); try assumption; intros i Hi; unfold neg; now rewrite H|]. split; [|assumption].
  intros i Hi. rewrite <- !(traction_ext d _ n n') by assumption. now apply F.
Qed.
Lemma riemannF_ext d l r n n' qL qR sL sR : dim d -> (forall i, (i < d)%nat -> n i = n' i) -> riemannF d l r n qL qR sL sR -> riemannF d l r n' qL qR sL sR.
Proof.
  intros D H (A & B & C & E & F & G). split; [assumption|]. split; [assumption|]. split; [now apply (entering_ext d l n n')|].
  split; [apply (entering_ext d r (neg n)); try assumption; intros i Hi; unfold neg; now rewrite H|]. split.
  - intros i Hi. rewrite <- !(traction_ext d _ n n') by assumption. now apply F.
  - rewrite <- !(dot_ext d _ n _ n') by auto. assumption.
Qed.
Lemma riemannF_swap d l r n qL qR sL sR : dim d -> riemannF d l r n qL qR sL sR -> riemannF d r l (neg n) qR qL sR sL.
Proof.
  intros D (A & B & C & E & F & G). split; [assumption|]. split; [assumption|]. split; [assumption|].
  split; [apply (entering_ext d l n); try assumption; intros i Hi; unfold neg; ring|]. split.
  - intros i Hi. rewrite !traction_neg, F; auto.
  - rewrite !dot_neg, G. reflexivity.
Qed.

Lemma co3_neg n i : (i < 3)%nat -> neg (co3 n) i = co3 (nv n) i.
Proof. destruct n as [[a b] c]. destruct i as [|[|[|]]]; try lia; reflexivity. Qed.
Lemma co2_neg nx ny i : (i < 2)%nat -> neg (co2 nx ny) i = co2 (- nx) (- ny) i.
Proof. destruct i as [|[|]]; try lia; reflexivity. Qed.
Lemma ortho_neg n s t : orthonormal n s t -> orthonormal (nv n) s t.
Proof.
  destruct n as [[a b] c], s as [[d e] f], t as [[g h] i]. cbv [orthonormal vopp fst snd]. intros (A & B & C & D & E & F).
  repeat split; try assumption; lra.
Qed.
Lemma unit2_neg nx ny : unit2 nx ny -> unit2 (- nx) (- ny).
Proof. unfold unit2. intros. lra. Qed.
Lemma dim3 : dim 3. Proof. now right. Qed.
Lemma dim2 : dim 2. Proof. now left. Qed.
#[export] Hint Resolve dim2 dim3 : core.

Lemma face3 l r n s t : solid l -> solid r -> orthonormal n s t -> exists e a e' a', faceFs3R l r n s t = Ok ((e, a), (e', a')) /\
  forall qL qR sL sR, length qL = 9%nat -> length qR = 9%nat -> riemann 3 l r (co3 n) qL qR sL sR ->
    (appFs 9 9 e qL qR = flux 3 l (co3 n) sL /\ appFs 9 9 e' qR qL = flux 3 r (neg (co3 n)) sR) /\
    (appFs 6 9 a qL qR = strainFlux 3 (co3 n) (vel 3 sL) /\ appFs 6 9 a' qR qL = strainFlux 3 (neg (co3 n)) (vel 3 sR)).
Proof.
  intros L R O. destruct (setUp3 l r n s t false) as (e & a & E & P & PA). destruct (setUp3 r l (nv n) s t false) as (e' & a' & E' & P' & PA').
  exists e, a, e', a'. split. { unfold faceFs3R, faceFs3. unfold setUpFs3R in E, E'. rewrite E. cbn [bind]. rewrite E'. reflexivity. }
  intros qL qR sL sR HL HR Rm. pose proof (ortho_unit3 n s t O) as U. pose proof (ortho_neg n s t O) as O'. pose proof (ortho_unit3 (nv n) s t O') as U'.
  pose proof (riemann_ext 3 r l (neg (co3 n)) (co3 (nv n)) qR qL sR sL dim3 (co3_neg n) (riemann_swap 3 l r (co3 n) qL qR sL sR dim3 Rm)) as Rm'.
  pose proof (riemann_star 3 l r (co3 n) qL qR sL sR dim3 U L R HL HR Rm) as S1.
  pose proof (riemann_star 3 r l (co3 (nv n)) qR qL sR sL dim3 U' R L HR HL Rm') as S2.
  rewrite P, P', PA, PA'. rewrite !solver3, !solverA3 by assumption. rewrite (flux_ext 3 r (neg (co3 n)) (co3 (nv n))) by (auto using co3_neg). repeat split.
  - symmetry. apply flux_VT; auto; intros i Hi; now apply S1.
  - symmetry. apply flux_VT; auto; intros i Hi; now apply S2.
  - apply strainFlux_ext; auto. intros i Hi. symmetry. now apply S1.
  - transitivity (strainFlux 3 (co3 (nv n)) (vel 3 sR)). { apply strainFlux_ext; auto. intros i Hi. symmetry. now apply S2. }
    unfold strainFlux, mkT, strain. cbn [map pairs Nat.eqb fst snd]. now rewrite !(co3_neg n) by lia.
Qed.
Lemma free3 l n s t : solid l -> orthonormal n s t -> exists e a, setUpFs3R l l n s t true = Ok (e, a) /\
  forall q f, length q = 9%nat -> freeState 3 l (co3 n) q f -> appFs 9 9 e q q = flux 3 l (co3 n) f /\ appFs 6 9 a q q = strainFlux 3 (co3 n) (vel 3 f).
Proof.
  intros L O. destruct (setUp3 l l n s t true) as (e & a & E & P & PA). exists e, a. split; [assumption|]. intros q f H F.
  pose proof (ortho_unit3 n s t O) as U. pose proof (free_star 3 l (co3 n) q f dim3 U L H F) as S1. rewrite P, PA, freeSolver3, freeSolverA3 by assumption. split.
  - symmetry. apply flux_VT; auto. intros i Hi. now apply F.
  - apply strainFlux_ext; auto. intros i Hi. symmetry. now apply S1.
Qed.

Lemma face2 l r nx ny : solid l -> solid r -> unit2 nx ny -> exists e a e' a', faceFs2R l r nx ny = Ok ((e, a), (e', a')) /\
  forall qL qR sL sR, length qL = 5%nat -> length qR = 5%nat -> riemann 2 l r (co2 nx ny) qL qR sL sR ->
    (appFs 5 5 e qL qR = flux 2 l (co2 nx ny) sL /\ appFs 5 5 e' qR qL = flux 2 r (neg (co2 nx ny)) sR) /\
    (appFs 3 5 a qL qR = strainFlux 2 (co2 nx ny) (vel 2 sL) /\ appFs 3 5 a' qR qL = strainFlux 2 (neg (co2 nx ny)) (vel 2 sR)).
Proof.
  intros L R O. destruct (setUp2S l r nx ny false L R) as (e & a & E & P & PA). destruct (setUp2S r l (- nx) (- ny) false R L) as (e' & a' & E' & P' & PA').
  exists e, a, e', a'. split. { unfold faceFs2R, faceFs2. unfold setUpFs2R in E, E'. rewrite E. cbn [bind]. rewrite E'. reflexivity. }
  intros qL qR sL sR HL HR Rm. pose proof (unit2_dot nx ny O) as U. pose proof (unit2_neg nx ny O) as O'. pose proof (unit2_dot _ _ O') as U'.
  pose proof (riemann_ext 2 r l (neg (co2 nx ny)) (co2 (- nx) (- ny)) qR qL sR sL dim2 (co2_neg nx ny) (riemann_swap 2 l r (co2 nx ny) qL qR sL sR dim2 Rm)) as Rm'.
  pose proof (riemann_star 2 l r (co2 nx ny) qL qR sL sR dim2 U L R HL HR Rm) as S1.
  pose proof (riemann_star 2 r l _ qR qL sR sL dim2 U' R L HR HL Rm') as S2.
  rewrite P, P', PA, PA'. rewrite !solver2, !solverA2 by assumption. rewrite (flux_ext 2 r (neg (co2 nx ny)) (co2 (- nx) (- ny))) by (auto using co2_neg). repeat split.
  - symmetry. apply flux_VT; auto; intros i Hi; now apply S1.
  - symmetry. apply flux_VT; auto; intros i Hi; now apply S2.
  - apply strainFlux_ext; auto. intros i Hi. symmetry. now apply S1.
  - transitivity (strainFlux 2 (co2 (- nx) (- ny)) (vel 2 sR)). { apply strainFlux_ext; auto. intros i Hi. symmetry. now apply S2. }
    unfold strainFlux, mkT, strain. cbn [map pairs Nat.eqb fst snd]. now rewrite !(co2_neg nx ny) by lia.
Qed.
Lemma free2 l nx ny : solid l -> unit2 nx ny -> exists e a, setUpFs2R l l nx ny true = Ok (e, a) /\
  forall q f, length q = 5%nat -> freeState 2 l (co2 nx ny) q f -> appFs 5 5 e q q = flux 2 l (co2 nx ny) f /\ appFs 3 5 a q q = strainFlux 2 (co2 nx ny) (vel 2 f).
Proof.
  intros L O. destruct (setUp2S l l nx ny true L L) as (e & a & E & P & PA). exists e, a. split; [assumption|]. intros q f H F.
  pose proof (unit2_dot nx ny O) as U. pose proof (free_star 2 l (co2 nx ny) q f dim2 U L H F) as S1. rewrite P, PA, freeSolver2, freeSolverA2 by assumption. split.
  - symmetry. apply flux_VT; auto. intros i Hi. now apply F.
  - apply strainFlux_ext; auto. intros i Hi. symmetry. now apply S1.
Qed.
Lemma face2F l r nx ny : fluid l -> fluid r -> unit2 nx ny -> exists e a e' a', faceFs2R l r nx ny = Ok ((e, a), (e', a')) /\
  forall qL qR sL sR, length qL = 5%nat -> length qR = 5%nat -> hydrostatic 2 qL -> hydrostatic 2 qR -> riemannF 2 l r (co2 nx ny) qL qR sL sR ->
    appFs 5 5 e qL qR = flux 2 l (co2 nx ny) sL /\ appFs 5 5 e' qR qL = flux 2 r (neg (co2 nx ny)) sR.
Proof.
  intros L R O. destruct (setUp2F l r nx ny false L R) as (e & a & E & P). destruct (setUp2F r l (- nx) (- ny) false R L) as (e' & a' & E' & P').
  exists e, a, e', a'. split. { unfold faceFs2R, faceFs2. unfold setUpFs2R in E, E'. rewrite E. cbn [bind]. rewrite E'. reflexivity. }
  intros qL qR sL sR HL HR YL YR Rm. pose proof (unit2_dot nx ny O) as U. pose proof (unit2_neg nx ny O) as O'. pose proof (unit2_dot _ _ O') as U'.
  pose proof (riemannF_ext 2 r l (neg (co2 nx ny)) (co2 (- nx) (- ny)) qR qL sR sL dim2 (co2_neg nx ny) (riemannF_swap 2 l r (co2 nx ny) qL qR sL sR dim2 Rm)) as Rm'.
  destruct (riemannF_star 2 l r (co2 nx ny) qL qR sL sR dim2 U L R HL HR YL YR Rm) as [S1 S1'].
  destruct (riemannF_star 2 r l _ qR qL sR sL dim2 U' R L HR HL YR YL Rm') as [S2 S2'].
  rewrite P, P'. rewrite !solverF2 by assumption. rewrite (flux_ext 2 r (neg (co2 nx ny)) (co2 (- nx) (- ny))) by (auto using co2_neg). split; symmetry; apply fluid_flux; auto.
Qed.
Lemma free2F l nx ny : fluid l -> unit2 nx ny -> exists e a, setUpFs2R l l nx ny true = Ok (e, a) /\
  forall q f, length q = 5%nat -> hydrostatic 2 q -> freeState 2 l (co2 nx ny) q f -> appFs 5 5 e q q = flux 2 l (co2 nx ny) f.
Proof.
  intros L O. destruct (setUp2F l l nx ny true L L) as (e & a & E & P). exists e, a. split; [assumption|]. intros q f H Y F. rewrite P. now apply freeSolverF2.
Qed.

(** no energy enters from a state of rest *)
Lemma sum0 n (f : nat -> R) : (forall i, f i = 0) -> sum n f = 0.
Proof. intros. apply sum_zero. auto. Qed.
Lemma sig_zeros d i j : dim d -> sig d (zeros (nQt d)) i j = 0.
Proof. intros _. unfold sig, zeros. generalize (posOf i j (pairs d)). generalize (nQt d). induction n as [|n IH]; intros [|k]; cbn; auto. Qed.
Lemma vel_zeros d i : vel d (zeros (nQt d)) i = 0.
Proof. unfold vel, zeros. generalize (nSt d + i)%nat. generalize (nQt d). induction n as [|n IH]; intros [|k]; cbn; auto. Qed.
Lemma energy_zeros d m q : dim d -> energy2 d m (zeros (nQt d)) q = 0.
Proof.
  intros D. unfold energy2, dot. rewrite (sum0 d (fun i => vel d (zeros (nQt d)) i * vel d q i)), sum0; [ring| |intros i; rewrite vel_zeros; ring].
  intros i. apply sum0. intros j. rewrite sig_zeros by assumption. ring.
Qed.
