(** C93: local time stepping with the advection solver.  Any order of local steps, neighbouring steps and messages which respects the dependencies gives the states of the scheme; the
    distribution to partitions does not matter; the amount of the advected quantity is conserved.  Specification: AdvLtsSpec (scheme, schedules), AdvConsSpec (balance). *)
From Coq Require Import Ring Reals Lra.
From Verif Require Import BasisSpec BasisInt BasisOrth Basis BasisModes BasisSpan BasisDer EdgePreM EdgePreP.
From Verif Require Import Util MeshConn MatMul Props_Mat Sparse Lts Ader AderSpec AderV Props_Ader AdvK AdvKSpec AdvKV AderElSpec AderLtsSpec AdvLtsSpec AdvLtsV AdvLts AdvConsSpec AdvCons.
From Verif Require Props_AderEl Props_AderR Props_EdgePre AdvKR AdvFs AdvFsV Props_AdvFs Props_AdvK.
Local Open Scope nat_scope.

Section C93.
Context {T : Type}.
Variables (A : alg T) (cf : conf) (S_ : @advS T) (n : nat).
Local Notation nFa := (nElFas (cEl cf)).
Local Notation nMd := (nModes (cEl cf) (cSp cf)).
Local Notation nMdFa := (nModesFa (cEl cf) (cSp cf)).
Local Notation nCr := (cCrs cf).
Local Notation rep1 := (rep1 A cf).
Add Ring TR93 : (aRT A).
Local Opaque nModes nModesCk nQtsE nQtsM nDis nModesFa nElFas.

(** *** The scheme *)
(** adjacent elements differ by at most one time group *)
Definition gradedA (mesh : nat -> nat -> nbr) (lvl : nat -> nat) : Prop :=
  forall el fa ne v f, el < n -> fa < nFa -> mesh el fa = Next ne v f -> ne < n /\ lvl el <= S (lvl ne) /\ lvl ne <= S (lvl el).

Section Exists.
Variables (mesh : nat -> nat -> nbr) (lvl : nat -> nat) (dt hdt : nat -> nat -> T) (q0 : nat -> nat -> T).
(** states of the elements at tick [t]: element [el] reaches update k at tick k 2^lvl *)
Fixpoint table (t : nat) : nat -> nat -> nat -> T :=
  match t with
  | O => fun el _ => q0 el
  | S t' => fun el k => if k * 2 ^ lvl el =? S t' then updateA A cf S_ mesh lvl dt hdt (table t') el (k - 1) else table t' el k
  end.
Definition theQ (el k : nat) : nat -> T := table (k * 2 ^ lvl el) el k.
Lemma pow2 m : 1 <= 2 ^ m.
Proof. induction m; cbn [Nat.pow]; lia. Qed.
Lemma table_stable t el k : k * 2 ^ lvl el <= t -> table t el k = theQ el k.
Proof.
  intros H. unfold theQ. induction t as [|t IH].
  - now replace (k * 2 ^ lvl el) with 0 by lia.
  - destruct (Nat.eq_dec (k * 2 ^ lvl el) (S t)) as [E|N]; [now rewrite E|]. cbn [table]. rewrite (proj2 (Nat.eqb_neq _ _) N). apply IH. lia.
Qed.
Lemma neighT_ext el id d d' y : (forall fa, fa < nFa -> forall l, d fa l = d' fa l) -> neighT A cf S_ el id d y = neighT A cf S_ el id d' y.
Proof.
  intros E. unfold neighT. apply sum_ext. intros fa Hfa. unfold surfS. apply sum_ext. intros m _. f_equal. f_equal. unfold faceS. apply sum_ext. intros l _. now rewrite E.
Qed.
Lemma theQ_scheme : gradedA mesh lvl -> schemeA A cf S_ n mesh lvl dt hdt q0 theQ.
Proof.
  intros Gr el Hel. split; [reflexivity|]. intros k y. assert (P := pow2 (lvl el)). set (t := S k * 2 ^ lvl el - 1).
  assert (Et : S k * 2 ^ lvl el = S t) by (unfold t; nia).
  assert (Eq : theQ el (S k) = updateA A cf S_ mesh lvl dt hdt (table t) el k).
  { unfold theQ. rewrite Et. cbn [table]. rewrite Et, Nat.eqb_refl. now replace (S k - 1) with k by lia. }
  rewrite Eq. clear Eq. assert (E0 : table t el k = theQ el k) by (apply table_stable; nia).
  unfold updateA.
  assert (D : forall fa, fa < nFa -> forall l, dataA A cf S_ mesh lvl dt hdt (table t) el fa k l = dataA A cf S_ mesh lvl dt hdt theQ el fa k l).
  { intros fa Hfa l. unfold dataA, fullA, halfA. destruct (mesh el fa) as [|ne v f] eqn:Em; [now rewrite E0|]. destruct (Gr el fa ne v f Hel Hfa Em) as (_ & G1 & G2).
    destruct (Nat.compare_spec (lvl el) (lvl ne)) as [C|C|C].
    - rewrite (table_stable t ne k); [reflexivity|]. rewrite <- C. nia.
    - assert (lvl ne = S (lvl el)) by lia. assert (Hk := Nat.mul_div_le k 2 ltac:(lia)). rewrite (table_stable t ne (k / 2)); [reflexivity|]. rewrite H. cbn [Nat.pow]. nia.
    - assert (El : lvl el = S (lvl ne)) by lia. assert (P' := pow2 (lvl ne)). rewrite El in Et. cbn [Nat.pow] in Et. rewrite (table_stable t ne (2 * k)) by nia. rewrite (table_stable t ne (2 * k + 1)) by nia. reflexivity. }
  f_equal; [|exact (neighT_ext el (matA cf mesh el) _ _ y D)]. unfold fullA. now rewrite E0.
Qed.
End Exists.

Theorem C93_scheme_exists mesh lvl (dt hdt : nat -> nat -> T) q0 : gradedA mesh lvl -> exists Q, schemeA A cf S_ n mesh lvl dt hdt q0 Q.
Proof. intros G. exists (theQ mesh lvl dt hdt q0). now apply theQ_scheme. Qed.

(** *** All schedules *)
(** Every admissible schedule runs without error; an element, whose neighbouring steps have caught up with its local steps, holds the state of the scheme after this number of updates. *)
Theorem C93_schedule mesh lvl (dt hdt : nat -> nat -> T) cross fl M chars J mpi q0 Q ops L N Se R s0 recv0 net0 :
  goodA cf S_ n -> junkA cf J -> meshA cf n mesh lvl cross M -> charsA cf n mesh lvl fl chars ->
  (mpi = false -> forall el fa, el < n -> fa < nFa -> crossA mesh cross el fa = false) ->
  (forall z, z < nCr -> schemeA A cf S_ n mesh lvl dt hdt (q0 z) (Q z)) -> initialA A cf n mesh lvl cross q0 s0 recv0 net0 ->
  scheduleA cf n mesh lvl cross ops L N Se R ->
  exists s recv net, runA A cf S_ mesh dt hdt fl M chars J mpi ops (s0, recv0, net0) = Ok (s, recv, net) /\
    forall el, el < n -> N el <= L el <= S (N el) /\ (L el = N el -> rep1 nMd (nth el (aQ s) []) (fun z => Q z el (N el))).
Proof.
  intros HU HJ HM HC HP HQ HI HS.
  assert (HQ' : forall z, z < nCr -> forall el k y, el < n -> Q z el (S k) y = updateA A cf S_ mesh lvl dt hdt (Q z) el k y) by (intros z Hz el k y Hel; now apply (HQ z Hz el Hel)).
  pose proof (initial_inv A cf S_ n mesh lvl dt hdt cross mpi HP Q HQ' q0 s0 recv0 net0 HI (fun z el y Hz Hel => proj1 (HQ z Hz el Hel) y)) as I0.
  destruct (run_schedule A cf S_ n mesh lvl dt hdt cross fl M chars J mpi HU HJ HM HC HP Q HQ' ops L N Se R s0 recv0 net0 HS I0) as (s & recv & net & E & _ & _ & I).
  exists s, recv, net. split; [exact E|]. intros el Hel. destruct (I el Hel) as (H1 & H2 & _). split; [exact H1|]. intros EL. eapply rep1_ext; [exact H2|]. intros z y _ _. cbv beta. now rewrite EL, Nat.eqb_refl.
Qed.
(** If all elements have finished their updates and all messages have been received, the state is as at the beginning, with the new DOFs: another schedule may follow. *)
Theorem C93_again mesh lvl (dt hdt : nat -> nat -> T) cross fl M chars J mpi q0 Q ops L N Se R s0 recv0 net0 :
  goodA cf S_ n -> junkA cf J -> meshA cf n mesh lvl cross M -> charsA cf n mesh lvl fl chars ->
  (mpi = false -> forall el fa, el < n -> fa < nFa -> crossA mesh cross el fa = false) ->
  (forall z, z < nCr -> schemeA A cf S_ n mesh lvl dt hdt (q0 z) (Q z)) -> initialA A cf n mesh lvl cross q0 s0 recv0 net0 ->
  scheduleA cf n mesh lvl cross ops L N Se R -> (forall el, el < n -> L el = N el) ->
  (forall el fa ne v f, el < n -> fa < nFa -> mesh el fa = Next ne v f -> cross el fa = true -> Se el fa = R ne f) ->
  exists s recv net, runA A cf S_ mesh dt hdt fl M chars J mpi ops (s0, recv0, net0) = Ok (s, recv, net) /\ initialA A cf n mesh lvl cross (fun z el => Q z el (N el)) s recv net.
Proof.
  intros HU HJ HM HC HP HQ HI HS HL HR.
  assert (HQ' : forall z, z < nCr -> forall el k y, el < n -> Q z el (S k) y = updateA A cf S_ mesh lvl dt hdt (Q z) el k y) by (intros z Hz el k y Hel; now apply (HQ z Hz el Hel)).
  pose proof (initial_inv A cf S_ n mesh lvl dt hdt cross mpi HP Q HQ' q0 s0 recv0 net0 HI (fun z el y Hz Hel => proj1 (HQ z Hz el Hel) y)) as I0.
  destruct (run_schedule A cf S_ n mesh lvl dt hdt cross fl M chars J mpi HU HJ HM HC HP Q HQ' ops L N Se R s0 recv0 net0 HS I0) as (s & recv & net & E & I).
  exists s, recv, net. split; [exact E|]. eapply inv_initial; eassumption.
Qed.

(** Two runs on the same mesh with the same DOFs at the beginning: different schedules, different distributions to partitions, different contents of all buffers and of the scratch memory.
    An element, for which both runs have finished the same number of updates, has the same DOFs in both. *)
Theorem C93_same_result mesh lvl (dt hdt : nat -> nat -> T) fl q0
    cross1 M1 chars1 J1 mpi1 ops1 L1 N1 Se1 R1 s1 recv1 net1 cross2 M2 chars2 J2 mpi2 ops2 L2 N2 Se2 R2 s2 recv2 net2 :
  goodA cf S_ n ->
  (junkA cf J1 /\ meshA cf n mesh lvl cross1 M1 /\ charsA cf n mesh lvl fl chars1 /\ (mpi1 = false -> forall el fa, el < n -> fa < nFa -> crossA mesh cross1 el fa = false)) ->
  (junkA cf J2 /\ meshA cf n mesh lvl cross2 M2 /\ charsA cf n mesh lvl fl chars2 /\ (mpi2 = false -> forall el fa, el < n -> fa < nFa -> crossA mesh cross2 el fa = false)) ->
  initialA A cf n mesh lvl cross1 q0 s1 recv1 net1 -> initialA A cf n mesh lvl cross2 q0 s2 recv2 net2 ->
  scheduleA cf n mesh lvl cross1 ops1 L1 N1 Se1 R1 -> scheduleA cf n mesh lvl cross2 ops2 L2 N2 Se2 R2 ->
  exists t1 v1 w1 t2 v2 w2, runA A cf S_ mesh dt hdt fl M1 chars1 J1 mpi1 ops1 (s1, recv1, net1) = Ok (t1, v1, w1) /\ runA A cf S_ mesh dt hdt fl M2 chars2 J2 mpi2 ops2 (s2, recv2, net2) = Ok (t2, v2, w2) /\
    forall el, el < n -> L1 el = N1 el -> L2 el = N2 el -> N1 el = N2 el -> nth el (aQ t1) [] = nth el (aQ t2) [].
Proof.
  intros HU (A1 & A2 & A3 & A5) (B1 & B2 & B3 & B5) I1 I2 S1 S2.
  assert (G : gradedA mesh lvl). { intros el fa ne v f Hel Hfa Em. destruct (A2 el fa Hel Hfa) as (fid & ch & _ & _ & X). rewrite Em in X. destruct X as (_ & _ & _ & _ & X1 & _ & _ & X2 & _). auto. }
  set (Q := fun z => theQ mesh lvl dt hdt (q0 z)).
  assert (HQ : forall z, z < nCr -> schemeA A cf S_ n mesh lvl dt hdt (q0 z) (Q z)) by (intros; now apply theQ_scheme).
  destruct (C93_schedule mesh lvl dt hdt cross1 fl M1 chars1 J1 mpi1 q0 Q ops1 L1 N1 Se1 R1 s1 recv1 net1 HU A1 A2 A3 A5 HQ I1 S1) as (t1 & v1 & w1 & E1 & H1).
  destruct (C93_schedule mesh lvl dt hdt cross2 fl M2 chars2 J2 mpi2 q0 Q ops2 L2 N2 Se2 R2 s2 recv2 net2 HU B1 B2 B3 B5 HQ I2 S2) as (t2 & v2 & w2 & E2 & H2).
  exists t1, v1, w1, t2, v2, w2. split; [exact E1|]. split; [exact E2|]. intros el Hel X1 X2 X3. eapply Props_AderEl.rep_unique; [now apply H1|]. rewrite X3. now apply H2.
Qed.

(** *** Balance *)
(** The amount changes by what enters through the boundary. *)
Theorem C93_balance mesh lvl (dt hdt : nat -> nat -> T) w q0 Q c : 0 < nMd -> 0 < nMdFa -> constant0 A cf S_ n mesh -> fluxCons A cf S_ n mesh w -> meshSymA cf n mesh lvl ->
  schemeA A cf S_ n mesh lvl dt hdt q0 Q -> synchronizedA n lvl c ->
  amount A n w (fun el => Q el (c el)) = aAdd A (amount A n w q0) (entered A cf S_ n mesh lvl dt w Q c).
Proof. intros P1 P2 HC HF HM HQ Hc. now apply (balance A cf S_ n mesh lvl dt hdt w P1 P2 HC HF HM q0 Q HQ c Hc). Qed.
Theorem C93_conserved mesh lvl (dt hdt : nat -> nat -> T) w q0 Q c : 0 < nMd -> 0 < nMdFa -> constant0 A cf S_ n mesh -> fluxCons A cf S_ n mesh w -> meshSymA cf n mesh lvl -> closedA cf n mesh ->
  schemeA A cf S_ n mesh lvl dt hdt q0 Q -> synchronizedA n lvl c -> amount A n w (fun el => Q el (c el)) = amount A n w q0.
Proof.
  intros P1 P2 HC HF HM HO HQ Hc. rewrite (C93_balance mesh lvl dt hdt w q0 Q c) by assumption.
  assert (E : entered A cf S_ n mesh lvl dt w Q c = aZero A). { unfold entered. apply (sum_0 A). intros el Hel. apply (sum_0 A). intros fa Hfa. specialize (HO el fa Hel Hfa). now destruct (mesh el fa). }
  rewrite E. ring.
Qed.
End C93.

(** *** Amounts: real numbers, EDGEpre's matrices, the flux solvers of the set-up *)
Section Reals.
Import Props_AderR Props_EdgePre AdvKR.
Local Open Scope R_scope.
Variables (cf : conf) (S_ : @advS R) (n : nat) (mesh : nat -> nat -> nbr) (lvl : nat -> nat) (dt hdt : nat -> nat -> R).
Local Notation e := (refOf (cEl cf)).
Local Notation nFa := (nElFas (cEl cf)).
Local Notation nMd := (nModes (cEl cf) (cSp cf)).

(** Elements are in the partitions [P el], with number [loc el] there; [I p], [nE p], [nF p]: mesh of partition p, sizes.  [D]: determinants of the elements' mappings, [v]: speeds of the elements,
    [nrm], [area]: normals out of the elements, areas of the faces.  The flux solvers are those of the set-up of each partition; the two sides of a face have opposite normals. *)
Definition upwindFaces (per : N) (big : R) (P loc : nat -> nat) (I : nat -> AdvFs.advIn) (nE nF : nat -> nat) (D : nat -> R) (v : nat -> AdvFs.spd) (nrm : nat -> nat -> R * R * R) (area : nat -> nat -> R) : Prop :=
  0 < big /\
  (forall el, (el < n)%nat -> AdvFsV.advWf e per (I (P el)) (nE (P el)) (nF (P el)) /\ AdvFsV.detIs e (I (P el)) (loc el) (D el) /\ nth_error (AdvFs.vBg (I (P el))) (loc el) = Some (v el) /\
    exists o, AdvFs.setupSolvers e (cSp cf) per (I (P el)) big (nE (P el)) (nF (P el)) = Ok o /\ nth_error o (loc el) = Some (nth el (gFs S_) [])) /\
  (forall el fa, (el < n)%nat -> (fa < nFa)%nat -> AdvFsV.sideA (I (P el)) (loc el) fa (nrm el fa) (area el fa) (match mesh el fa with Next ne _ _ => Some (v ne) | Outer => None end) /\
    match mesh el fa with Next ne _ f => nrm ne f = AdvFsV.vneg (nrm el fa) /\ area ne f = area el fa | Outer => True end).
(** orientations of the faces exist *)
Definition orient : Prop := forall el fa ne v f, (el < n)%nat -> (fa < nFa)%nat -> mesh el fa = Next ne v f -> (v < nOri e)%nat.

Lemma constant0_ok stT : (1 <= cSp cf)%nat -> refMats cf stT (gSt S_) (gLN S_) (gFT S_) -> orient -> meshSymA cf n mesh lvl -> constant0 algR cf S_ n mesh.
Proof.
  intros Hn HR HO HM.
  set (U := {| uStT := stT; uSt := gSt S_; uLN := gLN S_; uFT := gFT S_; uRf := []; uS := {| AderEl.mStarE := []; AderEl.mStarA := []; AderEl.mSrcA := []; AderEl.mFsE0 := []; AderEl.mFsE1 := []; AderEl.mFsA0 := []; AderEl.mFsA1 := [] |}; uN := n |} : @setup R).
  pose proof (C84_reference cf U (fun el fa => match mesh el fa with Outer => Outflow | Next ne v f => Inner ne v f end) Hn HR) as H.
  destruct H as (H1 & H2 & H3 & H4).
  { intros el fa ne v f Hel Hfa E. destruct (mesh el fa) as [|ne' v' f'] eqn:Em; [discriminate|]. injection E as -> -> ->. split; [now destruct (HM el fa ne v f Hel Hfa Em) as (_ & X & _)|now apply (HO el fa ne v f)]. }
  split; [exact H1|]. split; [exact H2|]. split; [exact H3|]. intros el fa ne v f l Hel Hfa Em Hl. apply (H4 el fa ne v f l); auto. now rewrite Em.
Qed.

Lemma get_row o l row i : nth_error o l = Some row -> (i < length row)%nat -> AdvFsV.get o l i = Some (nth i row 0).
Proof. intros E L. unfold AdvFsV.get. rewrite E. now apply nth_error_nth'. Qed.
Section Faces.
Variables (per : N) (big : R) (P loc : nat -> nat) (I : nat -> AdvFs.advIn) (nE nF : nat -> nat) (D : nat -> R) (v : nat -> AdvFs.spd) (nrm : nat -> nat -> R * R * R) (area : nat -> nat -> R).
Hypothesis HU : upwindFaces per big P loc I nE nF D v nrm area.
Hypothesis HG : goodA cf S_ n.
Lemma solvers el fa : (el < n)%nat -> (fa < nFa)%nat -> exists o, AdvFs.setupSolvers e (cSp cf) per (I (P el)) big (nE (P el)) (nF (P el)) = Ok o /\
  AdvFsV.get o (loc el) fa = Some (fsOwn algR S_ el fa) /\ AdvFsV.get o (loc el) (nFas e + fa) = Some (fsNeigh algR cf S_ el fa).
Proof.
  intros Hel Hfa. destruct HU as (_ & H & _). destruct (H el Hel) as (_ & _ & _ & o & E & Er). exists o. split; [exact E|]. destruct HG as (_ & _ & _ & _ & _ & (_ & Sz)). specialize (Sz el Hel).
  rewrite <- refOf_fas. split; apply get_row; auto; lia.
Qed.
Lemma fluxCons_ok : meshSymA cf n mesh lvl -> fluxCons algR cf S_ n mesh D.
Proof.
  intros HM el fa ne r f Hel Hfa Em. destruct (HM el fa ne r f Hel Hfa Em) as (Hne & Hf & _ & r' & Em'). destruct HU as (Hb & H1 & H2).
  destruct (H1 el Hel) as (W & Dl & Vl & _). destruct (H1 ne Hne) as (W' & Dr & Vr & _). destruct (solvers el fa Hel Hfa) as (o & E & G1 & G2). destruct (solvers ne f Hne Hf) as (o' & E' & G1' & G2').
  destruct (H2 el fa Hel Hfa) as (Sl & X). rewrite Em in Sl, X. destruct X as (X1 & X2). destruct (H2 ne f Hne Hf) as (Sr & _). rewrite Em' in Sr. rewrite X1, X2 in Sr.
  exact (proj1 (Props_AdvFs.C91_conservative e (cSp cf) per big Hb _ _ _ _ _ _ _ _ _ _ _ _ _ _ _ _ _ _ _ _ _ _ W W' E E' Sl Sr Vl Vr Dl Dr G1 G2 G1' G2')).
Qed.
(** solvers at the boundary: what flows out *)
Lemma outer_ok el fa : (el < n)%nat -> (fa < nFa)%nat -> mesh el fa = Outer ->
  fsOwn algR S_ el fa + fsNeigh algR cf S_ el fa = - Rmax 0 (AdvFs.dotN (dim e) (v el) (nrm el fa)) * AdvFsV.used e (cSp cf) (area el fa) (D el).
Proof.
  intros Hel Hfa Em. destruct HU as (Hb & H1 & H2). destruct (H1 el Hel) as (W & Dl & Vl & _). destruct (solvers el fa Hel Hfa) as (o & E & G1 & G2).
  destruct (H2 el fa Hel Hfa) as (Sl & _). rewrite Em in Sl.
  destruct (Props_AdvFs.C91_upwind e (cSp cf) per big Hb _ _ _ W) as (o1 & E1 & U). rewrite E in E1. injection E1 as <-.
  assert (B : (loc el < nE (P el))%nat /\ (fa < nFas e)%nat). { pose proof Sl as (fc & ch & Hf & _). exact (AdvFsV.hasF_lt _ _ _ _ _ W _ _ _ Hf). }
  destruct (U _ _ (proj1 B) (proj2 B)) as (v1 & n1 & ar1 & w1 & D1 & A1 & A2 & A3 & A4 & A5).
  destruct (Props_AdvFs.sideA_det _ _ _ _ _ _ _ _ _ _ _ _ _ W Sl A2) as (<- & <- & <-).
  rewrite Vl in A1. injection A1 as <-. rewrite G1 in A4. rewrite G2 in A5. injection A4 as ->. injection A5 as ->.
  destruct A3 as (va & ja & Q1 & Q2 & Q3), Dl as (vb & jb & Q1' & Q2' & Q3'). assert (D1 = D el) as -> by congruence. ring.
Qed.
End Faces.

(** mode 0 is the mean value *)
Lemma mean0 V q : (1 <= cSp cf)%nat -> intEl e (fun _ _ _ => 1) V -> intEl e (fieldS cf q) (V * q 0%nat).
Proof.
  intros Hn HV. rewrite (Props_AdvK.vol0 cf e V Hn HV). pose proof (nMds_pos e (cSp cf) Hn) as P0. rewrite <- refOf_md in P0.
  replace (nb e (cSp cf) 0 * q 0%nat) with (rsum nMd (fun l => q l * (if (l =? 0)%nat then nb e (cSp cf) l else 0))).
  - refine (intEl_ext _ _ _ _ _ (intEl_sum e nMd (fun l x y z => q l * (bas e (cSp cf) l x y z * bas e (cSp cf) 0 x y z)) _ _)).
    + intros x y z. unfold fieldS. apply rsum_ext. intros l Hl. rewrite (bas_0 e (cSp cf)) by exact Hn. ring.
    + intros l Hl. apply intEl_scal. apply (bas_orth e (cSp cf) l 0); rewrite <- refOf_md; assumption.
  - rewrite <- sum_rsum. destruct nMd as [|k]; [lia|]. rewrite (sum_le algR 1 (S k)); [cbn; ring|lia|]. intros l Hl. destruct (Nat.eqb_spec l 0); [lia|]. cbn. ring.
Qed.
(** six times the area is used for tetrahedra of the first order (C92_amount_refuted) *)
Definition six : R := if match cEl cf with TET4 => (cSp cf =? 1)%nat | _ => false end then 6 else 1.
Lemma boundary0 stT V Vf s a d t fa : (1 <= cSp cf)%nat -> intEl e (fun _ _ _ => 1) V -> intEl (faEl e) (fun _ _ _ => 1) Vf -> d <> 0 -> refMats cf stT (gSt S_) (gLN S_) (gFT S_) -> (fa < nFa)%nat ->
  exists M, intEl (faEl e) (onFace e fa (fieldS cf t)) M /\ V * d * surfS algR cf (s * AdvFsV.used e (cSp cf) a d) (nth fa (gLN S_) []) (nth fa (gFT S_) []) t 0 = six * (s * a * (M / Vf)).
Proof.
  intros Hn HV HVf Hd HR Hfa. assert (P0 : (0 < nMd)%nat) by (rewrite refOf_md; now apply nMds_pos).
  assert (B1 : forall x y w, onFace e fa (bas e (cSp cf) 0) x y w = 1) by (intros x y w; unfold onFace; destruct (faToEl e fa x y) as ((x0 & x1) & x2); now apply bas_0).
  pose proof (Props_AdvK.vol0 cf _ _ Hn HV) as V1. pose proof (Props_AdvK.vol0 cf _ _ Hn HVf) as V2.
  pose proof (C84_surface_local cf stT (gSt S_) (gLN S_) (gFT S_) [1] fa (fun _ => t) 0 0 HR Hfa P0) as X. eexists. split.
  - refine (intEl_ext _ _ _ _ _ X). intros x y w. rewrite B1, Rmult_1_r. transitivity (1 * onFace e fa (fieldS cf t) x y w); [exact (flux1 cf 1 (onFace e fa (fieldS cf t)) x y w)|ring].
  - rewrite <- surfS_surf. set (k := s * AdvFsV.used e (cSp cf) a d).
    assert (Lk : surfS algR cf k (nth fa (gLN S_) []) (nth fa (gFT S_) []) t 0 = k * surfS algR cf 1 (nth fa (gLN S_) []) (nth fa (gFT S_) []) t 0).
    { unfold surfS. rewrite !sum_rsum, <- rsum_mul. apply rsum_ext. intros m _. cbn [aMul algR]. ring. }
    rewrite Lk. set (x := surfS _ _ 1 _ _ _ _). rewrite V1, V2. unfold nb, k, six, AdvFsV.used, AdvFsV.ratio. rewrite !modeAt_0 by exact Hn.
    destruct (cEl cf); cbn [refOf faEl norm2 Nat.mul Nat.add INR]; try (field; exact Hd). destruct (cSp cf =? 1)%nat; field; exact Hd.
Qed.

(** The amount in an element is the determinant times the integral over the reference element.  All elements have reached the same time: the total amount is the one of the beginning minus what has
    left through the boundary: through every face normal speed (if it points out) times area times the mean over the face of the time integrated states. *)
Theorem C93_amount stT per big P loc I nE nF D v nrm area q0 Q c Vf : (1 <= cSp cf)%nat -> refMats cf stT (gSt S_) (gLN S_) (gFT S_) -> goodA cf S_ n -> meshSymA cf n mesh lvl -> orient ->
  upwindFaces per big P loc I nE nF D v nrm area -> schemeA algR cf S_ n mesh lvl dt hdt q0 Q -> synchronizedA n lvl c -> intEl (faEl e) (fun _ _ _ => 1) Vf ->
  exists a0 a1 m, (forall el, (el < n)%nat -> intEl e (fieldS cf (q0 el)) (a0 el) /\ intEl e (fieldS cf (Q el (c el))) (a1 el)) /\
    (forall el fa k, (el < n)%nat -> (fa < nFa)%nat -> intEl (faEl e) (onFace e fa (fieldS cf (fullA algR cf S_ lvl dt Q el k))) (m el fa k)) /\
    rsum n (fun el => D el * a1 el) = rsum n (fun el => D el * a0 el) -
      six * rsum n (fun el => rsum nFa (fun fa => match mesh el fa with
        | Outer => Rmax 0 (AdvFs.dotN (dim e) (v el) (nrm el fa)) * area el fa * rsum (c el) (fun k => m el fa k / Vf)
        | Next _ _ _ => 0 end)).
Proof.
  intros Hn HR HG HM HO HU HQ Hc HVf.
  assert (HV : intEl e (fun _ _ _ => 1) (nb e (cSp cf) 0)). { pose proof (bas_orth e (cSp cf) 0 0 ltac:(now apply nMds_pos) ltac:(now apply nMds_pos)) as B. cbn [Nat.eqb] in B. refine (intEl_ext _ _ _ _ _ B). intros. rewrite !bas_0 by exact Hn. ring. }
  set (V := nb e (cSp cf) 0) in *.
  set (m := fun el fa k => surf algR cf [1] (nth fa (gLN S_) []) (nth fa (gFT S_) []) (fun _ => fullA algR cf S_ lvl dt Q el k) 0 0 * norm2 e (modeAt e (cSp cf) 0)).
  assert (Hm : forall el fa k, (el < n)%nat -> (fa < nFa)%nat -> intEl (faEl e) (onFace e fa (fieldS cf (fullA algR cf S_ lvl dt Q el k))) (m el fa k)).
  { intros el fa k _ Hfa. assert (P0 : (0 < nMd)%nat) by (rewrite refOf_md; now apply nMds_pos).
    assert (B1 : forall x y w, onFace e fa (bas e (cSp cf) 0) x y w = 1) by (intros x y w; unfold onFace; destruct (faToEl e fa x y) as ((x0 & x1) & x2); now apply bas_0).
    refine (intEl_ext _ _ _ _ _ (C84_surface_local cf stT (gSt S_) (gLN S_) (gFT S_) [1] fa (fun _ => fullA algR cf S_ lvl dt Q el k) 0 0 HR Hfa P0)).
    intros x y w. rewrite B1, Rmult_1_r. transitivity (1 * onFace e fa (fieldS cf (fullA algR cf S_ lvl dt Q el k)) x y w); [exact (flux1 cf 1 (onFace e fa (fieldS cf (fullA algR cf S_ lvl dt Q el k))) x y w)|ring]. }
  exists (fun el => V * q0 el 0%nat), (fun el => V * Q el (c el) 0%nat), m.
  split; [intros el Hel; split; now apply mean0|]. split; [exact Hm|].
  pose proof (C93_balance algR cf S_ n mesh lvl dt hdt D q0 Q c) as B. specialize (B ltac:(rewrite refOf_md; now apply nMds_pos) ltac:(rewrite refOf_mdFa; now apply nMds_pos) (constant0_ok stT Hn HR HO HM) (fluxCons_ok _ _ _ _ _ _ _ _ _ _ _ HU HG HM) HM HQ Hc).
  unfold amount, entered in B. rewrite !sum_rsum in B. cbn [aAdd aMul algR] in B.
  transitivity (V * rsum n (fun el => D el * Q el (c el) 0%nat)); [rewrite <- rsum_mul; apply rsum_ext; intros; ring|]. rewrite B, Rmult_plus_distr_l. unfold Rminus. f_equal; [rewrite <- rsum_mul; apply rsum_ext; intros; ring|].
  rewrite Ropp_mult_distr_l, <- !rsum_mul. apply rsum_ext. intros el Hel. rewrite sum_rsum, <- !rsum_mul. apply rsum_ext. intros fa Hfa. destruct (mesh el fa) as [|ne r f] eqn:Em; [|cbn [aZero algR]; ring].
  rewrite sum_rsum. rewrite (outer_ok _ _ _ _ _ _ _ _ _ _ _ HU HG el fa Hel Hfa Em). rewrite <- !rsum_mul. apply rsum_ext. intros k _.
  assert (Hd : D el <> 0). { destruct HU as (_ & H1 & _). destruct (H1 el Hel) as ((_ & _ & _ & L1 & _ & _ & W & _) & (va & ja & Q1 & Q2 & Q3) & Vl & _). assert (Lt : (loc el < nE (P el))%nat) by (rewrite <- L1; apply nth_error_Some; congruence).
    destruct (W _ Lt) as (d & (vb & jb & Q1' & Q2' & Q3') & X). assert (d = D el) by congruence. lra. }
  destruct (boundary0 stT V Vf (- Rmax 0 (AdvFs.dotN (dim e) (v el) (nrm el fa))) (area el fa) (D el) (fullA algR cf S_ lvl dt Q el k) fa Hn HV HVf Hd HR Hfa) as (M & HM1 & HM2).
  rewrite <- (intEl_unique _ _ _ _ HM1 (Hm el fa k Hel Hfa)). rewrite <- Rmult_assoc. rewrite HM2. ring.
Qed.
(** Without a boundary the total amount does not change; the statement is about the arrays of the solver after any schedule. *)
Theorem C93_mass stT per big P loc I nE nF D v nrm area cross fl M chars J mpi q0 ops L N Se R0 s0 recv0 net0 z : (1 <= cSp cf)%nat -> refMats cf stT (gSt S_) (gLN S_) (gFT S_) -> goodA cf S_ n -> junkA cf J ->
  meshA cf n mesh lvl cross M -> orient -> closedA cf n mesh -> charsA cf n mesh lvl fl chars -> (mpi = false -> forall el fa, (el < n)%nat -> (fa < nFa)%nat -> crossA mesh cross el fa = false) ->
  upwindFaces per big P loc I nE nF D v nrm area -> initialA algR cf n mesh lvl cross q0 s0 recv0 net0 -> scheduleA cf n mesh lvl cross ops L N Se R0 ->
  (forall el, (el < n)%nat -> L el = N el) -> synchronizedA n lvl N -> (z < cCrs cf)%nat ->
  exists s recv net, runA algR cf S_ mesh dt hdt fl M chars J mpi ops (s0, recv0, net0) = Ok (s, recv, net) /\
    exists a0 a1, (forall el, (el < n)%nat -> intEl e (Props_AdvK.fn cf z (nth el (aQ s0) [])) (a0 el) /\ intEl e (Props_AdvK.fn cf z (nth el (aQ s) [])) (a1 el)) /\
      rsum n (fun el => D el * a1 el) = rsum n (fun el => D el * a0 el).
Proof.
  intros Hn HR HG HJ HMA HO HCl HCh HP HU HI HS HL Hc Hz.
  assert (HM : meshSymA cf n mesh lvl). { intros el fa ne r f Hel Hfa Em. destruct (HMA el fa Hel Hfa) as (fid & ch & _ & _ & X). rewrite Em in X. destruct X as (_ & _ & _ & _ & X1 & X2 & _ & X3 & X4 & _). auto. }
  assert (G : gradedA cf n mesh lvl) by (intros el fa ne r f Hel Hfa Em; destruct (HM el fa ne r f Hel Hfa Em) as (X1 & _ & X2 & _); auto).
  set (Q := fun z => theQ algR cf S_ mesh lvl dt hdt (q0 z)).
  assert (HQ : forall z, (z < cCrs cf)%nat -> schemeA algR cf S_ n mesh lvl dt hdt (q0 z) (Q z)) by (intros; now apply theQ_scheme).
  destruct (C93_schedule algR cf S_ n mesh lvl dt hdt cross fl M chars J mpi q0 Q ops L N Se R0 s0 recv0 net0 HG HJ HMA HCh HP HQ HI HS) as (s & recv & net & E & Hs).
  exists s, recv, net. split; [exact E|]. assert (HV : intEl (faEl e) (fun _ _ _ => 1) (nb (faEl e) (cSp cf) 0)). { pose proof (bas_orth (faEl e) (cSp cf) 0 0 ltac:(now apply nMds_pos) ltac:(now apply nMds_pos)) as B. cbn [Nat.eqb] in B. refine (intEl_ext _ _ _ _ _ B). intros. rewrite !bas_0 by exact Hn. ring. }
  destruct (C93_amount stT per big P loc I nE nF D v nrm area (q0 z) (Q z) N _ Hn HR HG HM HO HU (HQ z Hz) Hc HV) as (a0 & a1 & m & H1 & _ & H2). exists a0, a1. split.
  - intros el Hel. destruct (H1 el Hel) as (X0 & X1). split.
    + refine (intEl_ext _ _ _ _ _ X0). intros x y w. symmetry. destruct HI as (_ & _ & _ & HI). exact (Props_AdvK.fn_rep1 cf _ _ z x y w (proj1 (HI el Hel)) Hz).
    + refine (intEl_ext _ _ _ _ _ X1). intros x y w. symmetry. exact (Props_AdvK.fn_rep1 cf _ _ z x y w (proj2 (Hs el Hel) (HL el Hel)) Hz).
  - rewrite H2. match goal with |- _ - _ * ?x = _ => assert (Z0 : x = 0) end.
    { rewrite <- sum_rsum. apply (sum_0 algR). intros el Hel. rewrite <- sum_rsum. apply (sum_0 algR). intros fa Hfa. specialize (HCl el fa Hel Hfa). now destruct (mesh el fa). }
    rewrite Z0. ring.
Qed.
End Reals.

(** *** Two triangles in two time groups, with two fused simulations: face 2 of element 0 is face 1 of element 1, the other faces are outflow boundaries. *)
Definition xaS : @advS Z := {| gStT := exStiffT; gSt := exStiff; gLN := exLN; gFT := exT; gStar := [[2; -1]; [3; 5]]%Z; gFs := [[1; 2; 3; 4; 5; 6]; [7; -2; 3; -4; 5; 1]]%Z |}.
Definition xaMesh (el fa : nat) : nbr := match el, fa with 0, 2 => Next 1 0 1 | 1, 1 => Next 0 0 2 | _, _ => Outer end.
Definition xaM (ad : list (list (option nat))) : advM := {| mCh := [1; 1; 0; 1; 1]%N; mOut := 1%N; mElFa := [[0; 1; 2]; [3; 2; 4]]; mElFaEl := ad;
  mFId := [[0; 0; 1]; [0; 2; 0]]; mVId := [[None; None; Some 0]; [None; Some 0; None]] |}.
Definition xaM1 := xaM [[None; None; Some 1]; [None; Some 0; None]].
Definition xaM2 := xaM (repeat (repeat None 3) 2).
Definition xaJ (x : Z) : @advJ Z := {| gjM := repeat x 6; gjD := [repeat x 6; repeat x 6]; gjF0 := repeat x 4; gjF1 := repeat x 4; gjT := repeat x 6 |}.
Definition xaQ (z el y : nat) : Z := Z.of_nat (1 + 100 * z + 10 * el + y).
Definition xaDofs (el : nat) : list Z := map (fun p => xaQ (p mod 2) el (p / 2)) (seq 0 6).
Definition xaS0 (send : list (@abuf Z)) : @advL Z := {| aQ := [xaDofs 0; xaDofs 1]; a0 := [zs 6; zs 6]; a1 := [zs 6; []]; a2 := [[]; zs 6]; aS := send |}.
Definition xaNo : list (@abuf Z) := repeat None 6.
Definition xaSend : list (@abuf Z) := [None; None; Some [zs 6]; None; Some [zs 6; zs 6]; None].
Definition xaRecv : list (@abuf Z) := [None; None; Some [zs 6; zs 6]; None; Some [zs 6]; None].
Definition xaNet : @msgs Z := repeat [] 6.
Definition xaOps1 : list aop := [ALocal 1 1 1 0; ALocal 0 0 1 0; ANeigh 0 0 1 0; ALocal 0 0 1 1; ANeigh 0 0 1 1; ANeigh 1 1 1 0].
Definition xaOps2 : list aop := [ALocal 0 0 1 0; ALocal 1 1 1 0; ASend 1 1; ARecv 0 2; ANeigh 0 0 1 0; ALocal 0 0 1 1; ASend 0 2; ARecv 1 1; ANeigh 1 1 1 0; ANeigh 0 0 1 1].
Import Props_AderEl.

Transparent nModes nModesCk nQtsE nQtsM nDis nModesFa nElFas.
Example xa_good : goodA exCfg xaS 2.
Proof. split; [cbn; lia|]. split; [szd|]. split; [szd|]. split; [exact ex_flux|]. split; szd. Qed.
Example xa_junk x : junkA exCfg (xaJ x).
Proof. split; [reflexivity|]. split; [szd|]. repeat split. Qed.
Example xa_mesh1 : meshA exCfg 2 xaMesh xlLvl xlNone xaM1.
Proof.
  intros el fa Hel Hfa. two Hel; three Hfa; (eexists _, _; split; [at2t|]; split; [reflexivity|]; cbn; try reflexivity);
  (split; [reflexivity|]; split; [at2t|]; split; [at2t|]; do 3 (split; [lia|]); split; [reflexivity|]; split; [cbv; lia|]; split; [eexists; reflexivity|at2t]).
Qed.
Example xa_mesh2 : meshA exCfg 2 xaMesh xlLvl xlCross xaM2.
Proof.
  intros el fa Hel Hfa. two Hel; three Hfa; (eexists _, _; split; [at2t|]; split; [reflexivity|]; cbn; try reflexivity);
  (split; [reflexivity|]; split; [at2t|]; split; [at2t|]; do 3 (split; [lia|]); split; [reflexivity|]; split; [cbv; lia|]; split; [eexists; reflexivity|eexists; at2t]).
Qed.
Example xa_chars : charsA exCfg 2 xaMesh xlLvl xlFl xlChars.
Proof. intros el Hel. two Hel; (eexists; split; [reflexivity|]; split; [split; reflexivity|]; intros fa Hfa; three Hfa; (do 3 (split; [cbn; lia|]); split; [|split]; reflexivity)). Qed.
Lemma xa_rep el : el < 2 -> rep1 algZ exCfg 3 (xaDofs el) (fun z => xaQ z el).
Proof. intros H. split; [reflexivity|]. intros z x y Hz Hx Hy. cbn [cCrs exCfg] in Hz. two Hz; three Hy; destruct x; try lia; reflexivity. Qed.
Example xa_init1 : initialA algZ exCfg 2 xaMesh xlLvl xlNone xaQ (xaS0 xaNo) xaNo xaNet.
Proof.
  split; [repeat split|]. split; [reflexivity|]. split; [reflexivity|].
  intros el Hel. two Hel; (split; [apply xa_rep; lia|]; split; [reflexivity|]; split; [intros X; vm_compute in X; (reflexivity || discriminate X)|]; split; [intros X; vm_compute in X; (reflexivity || discriminate X)|];
    intros fa Hfa; three Hfa; split; reflexivity).
Qed.
Example xa_init2 : initialA algZ exCfg 2 xaMesh xlLvl xlCross xaQ (xaS0 xaSend) xaRecv xaNet.
Proof.
  split; [repeat split|]. split; [reflexivity|]. split; [reflexivity|].
  intros el Hel. two Hel; (split; [apply xa_rep; lia|]; split; [reflexivity|]; split; [intros X; vm_compute in X; (reflexivity || discriminate X)|]; split; [intros X; vm_compute in X; (reflexivity || discriminate X)|];
    intros fa Hfa; three Hfa; first [split; reflexivity|eexists _, _; split; [reflexivity|]; split; [szd|]; split; [reflexivity|szd]]).
Qed.
Example xa_sched1 : exists L N Se R, scheduleA exCfg 2 xaMesh xlLvl xlNone xaOps1 L N Se R /\ L 0 = 2 /\ N 0 = 2 /\ L 1 = 1 /\ N 1 = 1.
Proof.
  eexists _, _, _, _. split.
  - change xaOps1 with (((((([] ++ [ALocal 1 1 1 0]) ++ [ALocal 0 0 1 0]) ++ [ANeigh 0 0 1 0]) ++ [ALocal 0 0 1 1]) ++ [ANeigh 0 0 1 1]) ++ [ANeigh 1 1 1 0]).
    apply Sa_neigh; [apply Sa_neigh; [apply Sa_local; [apply Sa_neigh; [apply Sa_local; [apply Sa_local; [apply Sa_nil|]|]|]|]|]|]; rdy.
  - repeat split.
Qed.
Example xa_sched2 : exists L N Se R, scheduleA exCfg 2 xaMesh xlLvl xlCross xaOps2 L N Se R /\ L 0 = 2 /\ N 0 = 2 /\ L 1 = 1 /\ N 1 = 1 /\ Se 0 2 = R 1 1 /\ Se 1 1 = R 0 2.
Proof.
  eexists _, _, _, _. split.
  - change xaOps2 with (((((((((([] ++ [ALocal 0 0 1 0]) ++ [ALocal 1 1 1 0]) ++ [ASend 1 1]) ++ [ARecv 0 2]) ++ [ANeigh 0 0 1 0]) ++ [ALocal 0 0 1 1]) ++ [ASend 0 2]) ++ [ARecv 1 1]) ++ [ANeigh 1 1 1 0]) ++ [ANeigh 0 0 1 1]).
    apply Sa_neigh; [apply Sa_neigh; [apply Sa_recv; [apply Sa_send; [apply Sa_local; [apply Sa_neigh; [apply Sa_recv; [apply Sa_send; [apply Sa_local; [apply Sa_local; [apply Sa_nil|]|]|]|]|]|]|]|]|]|]; first [rdm|rdy].
  - repeat split.
Qed.
(** the two runs: the elements' DOFs change, and are the same *)
Definition xaRun : res bool :=
  '(t1, _, _) <- runA algZ exCfg xaS xaMesh xlDt xlHdt xlFl xaM1 xlChars (xaJ 7) false xaOps1 (xaS0 xaNo, xaNo, xaNet);;
  '(t2, _, _) <- runA algZ exCfg xaS xaMesh xlDt xlHdt xlFl xaM2 xlChars (xaJ 9) true xaOps2 (xaS0 xaSend, xaRecv, xaNet);;
  Ok (forallb (fun el => eqz (nth el (aQ t1) []) (nth el (aQ t2) []) && negb (eqz (nth el (aQ t1) []) (xaDofs el))) [0; 1]).
Example xa_run : xaRun = Ok true.
Proof. vm_compute. reflexivity. Qed.

(** *** A periodic square of two triangles: bottom and top, left and right, and the diagonal are the faces of both; element 1 is the slower one *)
Section Torus.
Import Props_AderR Props_EdgePre AdvFs AdvFsV.
Local Open Scope R_scope.
Definition toI : advIn := {| vIn := 2; vRecv := []; vFaEl := repeat (Some 0%nat, Some 1%nat) 3; vElFa := [[0; 1; 2]; [0; 1; 2]]%nat; vCrd := [[[0; 4; 0]; [0; 0; 3]]; [[4; 0; 4]; [3; 3; 0]]];
  vCh := [{| aN := (0, -1, 0); aArea := 4; aSp := 0 |}; {| aN := (3 / 5, 4 / 5, 0); aArea := 5; aSp := 0 |}; {| aN := (-1, 0, 0); aArea := 3; aSp := 0 |}];
  vBg := [(1, 1 / 2, 0); (-2, 1, 0)]; vBgRe := [] |}.
Definition toN (el fa : nat) : R * R * R := let x := match fa with 0%nat => (0, -1, 0) | 1%nat => (3 / 5, 4 / 5, 0) | _ => (-1, 0, 0) end in match el with 0%nat => x | _ => vneg x end.
Definition toA (fa : nat) : R := match fa with 0%nat => 4 | 1%nat => 5 | _ => 3 end.
Definition toV (el : nat) : spd := match el with 0%nat => (1, 1 / 2, 0) | _ => (-2, 1, 0) end.
Definition toMesh (el fa : nat) : nbr := Next (1 - el) 0 fa.
Definition toCf : conf := Build_conf TRIA3 2 2 1 0.
Lemma to_wf : advWf Tria 1 toI 2 3.
Proof.
  split; [reflexivity|]. split; [reflexivity|]. split; [reflexivity|]. split; [reflexivity|]. split; [reflexivity|]. split; [|split; [|split; [|split; [|split]]]].
  - intros e row E. do 2 (destruct e as [|e]; [injection E as <-; split; [reflexivity|split; [repeat constructor; cbn; lia|cbn; intros; lia]]|]). destruct e; discriminate.
  - intros e He. exists 12. split; [|lra]. do 2 (destruct e as [|e]; [eexists _, _; split; [reflexivity|split; [reflexivity|cbv; ring]]|]). lia.
  - intros fa ch E. do 3 (destruct fa as [|fa]; [injection E as <-; cbn; lra|]). destruct fa; discriminate.
  - intros fa p ch E E'. destruct fa as [|[|[|fa]]]; [| | |destruct fa; discriminate]; injection E as <-; injection E' as <-; exists 0%nat; (split; [reflexivity|]); (split; [lia|]); cbn [snd].
    + assert (X : forall l, (l < 2)%nat -> exists i, hasF toI l i 0) by (intros l Hl; exists 0%nat; do 2 (destruct l as [|l]; [eexists; now split|]); lia). split; [left; apply X; lia|]. split; [lia|]. split; [lia|]. split; [left; apply X; lia|intros _; apply X; lia].
    + assert (X : forall l, (l < 2)%nat -> exists i, hasF toI l i 1) by (intros l Hl; exists 1%nat; do 2 (destruct l as [|l]; [eexists; now split|]); lia). split; [left; apply X; lia|]. split; [lia|]. split; [lia|]. split; [left; apply X; lia|intros _; apply X; lia].
    + assert (X : forall l, (l < 2)%nat -> exists i, hasF toI l i 2) by (intros l Hl; exists 2%nat; do 2 (destruct l as [|l]; [eexists; now split|]); lia). split; [left; apply X; lia|]. split; [lia|]. split; [lia|]. split; [left; apply X; lia|intros _; apply X; lia].
  - constructor.
  - intros e i fa (row & E & Ei). do 2 (destruct e as [|e]; [injection E as <-; do 3 (destruct i as [|i]; [injection Ei as <-; eexists; split; [reflexivity|cbn; auto]|]); destruct i; discriminate|]). destruct e; discriminate.
Qed.
Example to_case : exists S stT, refMats toCf stT (gSt S) (gLN S) (gFT S) /\ goodA toCf S 2 /\ meshSymA toCf 2 toMesh (fun el => el) /\ orient toCf 2 toMesh /\ closedA toCf 2 toMesh /\
  upwindFaces toCf S 2 toMesh 1 100 (fun _ => 0%nat) (fun el => el) (fun _ => toI) (fun _ => 2%nat) (fun _ => 3%nat) (fun _ => 12) toV toN (fun _ => toA) /\
  fsOwn algR S 0 1 <> 0 /\ exists q0 Q, schemeA algR toCf S 2 toMesh (fun el => el) (fun lv _ => INR (2 ^ lv)) (fun lv _ => INR (2 ^ lv) / 2) q0 Q /\ (forall el, (el < 2)%nat -> q0 el 0%nat = 1) /\ synchronizedA 2 (fun el => el) (fun el => (2 - el)%nat).
Proof.
  destruct (C84_load toCf) as (stT & st & fLN & fT & HR). destruct (C84_lowers toCf stT st fLN fT HR ltac:(cbn; lia)) as (_ & _ & _ & Z1 & Z2 & Z3).
  destruct (AdvFsV.setupSolvers_ok Tria 2 1 toI 100 2 3 to_wf ltac:(lra)) as (o & E & (Lo & So) & U).
  set (S := {| gStT := stT; gSt := st; gLN := fLN; gFT := fT; gStar := [[1; 1]; [1; 1]]; gFs := o |}).
  assert (Sd : forall el fa, (el < 2)%nat -> (fa < 3)%nat -> sideA toI el fa (toN el fa) (toA fa) (Some (toV (1 - el)))).
  { intros el fa Hel Hfa. two Hel; three Hfa; eexists _, _; (split; [eexists; now split|]); (split; [reflexivity|]); (split; [reflexivity|]).
    1, 2, 3: left; eexists; split; [reflexivity|]; split; [reflexivity|]; eexists; now split. all: right; eexists _, _; split; [reflexivity|]; split; [reflexivity|]; now split. }
  assert (HG : goodA toCf S 2).
  { split; [cbn; lia|]. split; [exact Z1|]. split; [exact Z2|]. split; [exact Z3|]. split; [szd|]. split; [exact Lo|]. intros el Hel. apply (So el). apply nth_error_nth'. change (el < length o)%nat. lia. }
  assert (HU : upwindFaces toCf S 2 toMesh 1 100 (fun _ => 0%nat) (fun el => el) (fun _ => toI) (fun _ => 2%nat) (fun _ => 3%nat) (fun _ => 12) toV toN (fun _ => toA)).
  { split; [lra|]. split.
    - intros el Hel. split; [exact to_wf|]. split; [two Hel; eexists _, _; (split; [reflexivity|split; [reflexivity|cbv; ring]])|]. split; [two Hel; reflexivity|]. exists o. split; [exact E|]. apply nth_error_nth'. change (el < length o)%nat. lia.
    - intros el fa Hel Hfa. cbn in Hfa. split; [now apply Sd|]. split; [|reflexivity]. two Hel; [reflexivity|]. cbn [Nat.sub toN vneg]. three Hfa; cbn [toN vneg]; repeat f_equal; ring. }
  assert (HM : meshSymA toCf 2 toMesh (fun el => el)).
  { intros el fa ne v f Hel Hfa X. injection X as X1 X2 X3. subst v f ne. two Hel; (split; [cbn; lia|]; split; [exact Hfa|]; split; [cbn; lia|]; exists 0%nat; reflexivity). }
  exists S, stT. split; [exact HR|]. split; [exact HG|]. split; [exact HM|]. split; [intros el fa ne v f _ _ X; injection X as <- <- <-; cbn; lia|]. split; [discriminate|]. split; [exact HU|]. split.
  - destruct (U 0%nat 1%nat ltac:(lia) ltac:(cbn; lia)) as (v1 & n1 & ar1 & w1 & D1 & A1 & A2 & (va & ja & Q1 & Q2 & Q3) & A4 & _). destruct (Props_AdvFs.sideA_det _ _ _ _ _ _ _ _ _ _ _ _ _ to_wf (Sd 0%nat 1%nat ltac:(lia) ltac:(lia)) A2) as (<- & <- & <-).
    injection A1 as <-. injection Q1 as <-. injection Q2 as <-. unfold fsOwn. unfold AdvFsV.get in A4. destruct (nth_error o 0) as [row|] eqn:Er; [|discriminate]. cbn [gFs S]. rewrite (nth_error_nth _ _ _ Er), (nth_error_nth _ _ _ A4).
    assert (D1 = 12) as -> by (rewrite Q3; cbv; ring). cbn [dotN dim used ratio toN toA]. rewrite Rmax_right by lra. lra.
  - destruct (C93_scheme_exists algR toCf S 2 toMesh (fun el => el) (fun lv _ => INR (2 ^ lv)) (fun lv _ => INR (2 ^ lv) / 2) (fun _ y => match y with 0%nat => 1 | _ => 3 end)) as (Q & HQ).
    { intros el fa ne v f Hel Hfa X. destruct (HM el fa ne v f Hel Hfa X) as (X1 & _ & X2 & _). auto. }
    exists (fun _ y => match y with 0%nat => 1 | _ => 3 end), Q. split; [exact HQ|]. split; [reflexivity|]. intros el ne Hel Hne. two Hel; two Hne; reflexivity.
Qed.
End Torus.

Print Assumptions C93_scheme_exists.
Print Assumptions C93_schedule.
Print Assumptions C93_again.
Print Assumptions C93_same_result.
Print Assumptions C93_balance.
Print Assumptions C93_conserved.
Print Assumptions C93_amount.
Print Assumptions C93_mass.
