(** Proofs about friction at internal boundaries. *)
From Coq Require Import List Arith Bool Lia Reals Lra Field.
From Verif Require Import Util MatMul ElGen Elastic ElSpec ElWave ElFlux ElTrafo ElMid ElMid2 ElFace Fault FaultSpec FaultMs FaultRot FaultFric FaultNet.
From Verif Require Import Props_FwaveR.
Import ListNotations.
Open Scope R_scope.

Lemma cs_zs m : solid m -> sqrt (1 / (mu m * rho m)) = 1 / zs m.
Proof.
  intros S. destruct (solid_cs m S) as (C & E). destruct S as (RP & MP & _). unfold zs. rewrite <- E.
  replace (1 / (speedS m * speedS m * rho m * rho m)) with ((1 / (rho m * speedS m)) * (1 / (rho m * speedS m))) by (field; lra).
  apply sqrt_square. left. apply Rdiv_lt_0_compat; [lra|]. apply Rmult_lt_0_compat; lra.
Qed.

Lemma strength_R muf sn0 co0 ms0 : strengthOf 0 Rplus Rmult Ropp rltb muf sn0 co0 ms0 = strength muf sn0 co0 ms0.
Proof.
  unfold strengthOf, strength, rltb, Rmax. destruct (Rlt_dec (muf * (sn0 + ms0) + co0) 0), (Rle_dec 0 (- (muf * (sn0 + ms0) + co0))); try reflexivity; lra.
Qed.
Lemma strength_pos muf sn0 co0 t : 0 <= strength muf sn0 co0 t.
Proof. apply Rmax_l. Qed.

(** the friction data of a face and the preferred direction *)
Lemma lswFa_ok tol sp l r f : 0 < tol -> solid l -> solid r -> lswFaInitR tol sp l r = Ok f ->
  let pref := rltb 0 sp in fLEqM f = negb pref /\ fCsP f = 1 / zs (pick pref l r) /\ fCsM f = 1 / zs (pick pref r l).
Proof.
  intros T L R. unfold lswFaInitR, lswFaInit. rewrite fabsR. unfold check. destruct (rltb tol (Rabs sp)) eqn:E; cbn [bind]; [|discriminate]. cbv zeta. intros H. injection H as <-. cbn [fLEqM fCsM fCsP toMat mMu mRho].
  apply rltb_lt in E. rewrite !cs_zs by assumption. unfold pick, rltb. destruct (Rlt_dec 0 sp) as [A|A], (Rlt_dec sp 0) as [B|B]; try (exfalso; lra); auto.
  exfalso. assert (sp = 0) by lra. subst sp. rewrite Rabs_R0 in E. lra.
Qed.

(** ** Frames *)
Lemma dot_frame3 n s t a b c : orthonormal n s t -> dot 3 (inFrame3 n s t a b c) (co3 n) = a /\ dot 3 (inFrame3 n s t a b c) (co3 s) = b /\ dot 3 (inFrame3 n s t a b c) (co3 t) = c /\
  dot 3 (inFrame3 n s t a b c) (inFrame3 n s t a b c) = a * a + b * b + c * c.
Proof.
  intros O. apply ortho_dots in O as (A & B & C & D & E & F).
  assert (X : forall v, dot 3 (inFrame3 n s t a b c) v = a * dot 3 (co3 n) v + (b * dot 3 (co3 s) v + c * dot 3 (co3 t) v)).
  { intros v. unfold inFrame3. cbv [dot sum seq fold_left]. ring. }
  assert (Y : forall v, dot 3 v (inFrame3 n s t a b c) = a * dot 3 v (co3 n) + (b * dot 3 v (co3 s) + c * dot 3 v (co3 t))).
  { intros v. rewrite dot_comm, X, !(dot_comm 3 v). reflexivity. }
  assert (D' := D). rewrite dot_comm in D'. assert (E' := E). rewrite dot_comm in E'. assert (F' := F). rewrite dot_comm in F'.
  assert (P1 : dot 3 (inFrame3 n s t a b c) (co3 n) = a) by (rewrite X, A, D', E'; ring).
  assert (P2 : dot 3 (inFrame3 n s t a b c) (co3 s) = b) by (rewrite X, B, D, F'; ring).
  assert (P3 : dot 3 (inFrame3 n s t a b c) (co3 t) = c) by (rewrite X, C, E, F; ring).
  split; [assumption|]. split; [assumption|]. split; [assumption|]. rewrite Y, P1, P2, P3. ring.
Qed.
Lemma dot_frame2 nx ny a b : unit2 nx ny -> dot 2 (inFrame2 nx ny a b) (co2 nx ny) = a /\ dot 2 (inFrame2 nx ny a b) (inFrame2 nx ny a b) = a * a + b * b.
Proof. unfold unit2. intros U. assert (Y : ny * ny = 1 - nx * nx) by lra. unfold inFrame2. cbv [dot sum seq fold_left co2]. split; ring [Y]. Qed.

Lemma tangential_frame3 n s t a b c i : orthonormal n s t -> tangential 3 (co3 n) (inFrame3 n s t a b c) i = inFrame3 n s t 0 b c i.
Proof. intros O. unfold tangential. rewrite (proj1 (dot_frame3 n s t a b c O)). unfold inFrame3. ring. Qed.
Lemma tangential_frame2 nx ny a b i : unit2 nx ny -> tangential 2 (co2 nx ny) (inFrame2 nx ny a b) i = inFrame2 nx ny 0 b i.
Proof. intros O. unfold tangential. rewrite (proj1 (dot_frame2 nx ny a b O)). unfold inFrame2. ring. Qed.
Lemma tangential_ext d n v w i : (i < d)%nat -> (forall i, (i < d)%nat -> v i = w i) -> tangential d n v i = tangential d n w i.
Proof. intros Hi H. unfold tangential. rewrite (dot_ext d v n w n), H by auto. reflexivity. Qed.

(** ** Three dimensions *)
Definition bg3 (s t : R * R * R) (sf : @lswSf R) (i : nat) : R := nth 0 (sSs0 sf) 0 * co3 s i + nth 1 (sSs0 sf) 0 * co3 t i.
Definition stOf (sf : @lswSf R) : R -> R := strength (sMuf sf) (sSn0 sf) (sCo0 sf).

Lemma bg3_frame n s t sf i : bg3 s t sf i = inFrame3 n s t 0 (nth 0 (sSs0 sf) 0) (nth 1 (sSs0 sf) 0) i.
Proof. unfold bg3, inFrame3. ring. Qed.

(** result of the friction law in terms of the welded state *)
Lemma lsw3 p m n s t qP qM ms dt f g sf : orthonormal n s t -> length ms = 9%nat -> solid p -> solid m ->
  (forall i, (i < 3)%nat -> velOf3 n s t ms i = starV 3 p m (co3 n) qP qM i /\ tracOf3 n s t ms i = starT 3 p m (co3 n) qP qM i) ->
  fCsP f = 1 / zs p -> fCsM f = 1 / zs m ->
  let c := factor 3 p m (co3 n) (bg3 s t sf) (stOf sf) qP qM in let w := weldShear 3 p m (co3 n) (bg3 s t sf) qP qM in
  exists zM zP per sf', linSlipWeak3 0 Rplus Rminus Rmult Rdiv Ropp sqrt rltb dt f g ms sf = (((zM, zP), per), sf') /\ length zM = 9%nat /\ length zP = 9%nat /\
    (forall i, (i < 3)%nat -> tracOf3 n s t zM i = starT 3 p m (co3 n) qP qM i + (c - 1) * w i /\ tracOf3 n s t zP i = starT 3 p m (co3 n) qP qM i + (c - 1) * w i /\
      velOf3 n s t zP i = starV 3 p m (co3 n) qP qM i + (c - 1) * w i / zs p /\ velOf3 n s t zM i = starV 3 p m (co3 n) qP qM i - (c - 1) * w i / zs m /\
      nth 0 (sTr sf') 0 * co3 s i + nth 1 (sTr sf') 0 * co3 t i = c * w i /\
      nth 0 (sSr sf') 0 * co3 s i + nth 1 (sSr sf') 0 * co3 t i = (c - 1) * w i / zs p + (c - 1) * w i / zs m) /\
    (per = true <-> stOf sf (tn0 3 p m (co3 n) qP qM) < norm 3 w) /\ sSt sf' = stOf sf (tn0 3 p m (co3 n) qP qM).
Proof.
  intros O L9 SP SM H CP CM. cbv zeta. set (c := factor _ _ _ _ _ _ _ _). set (w := weldShear _ _ _ _ _ _ _).
  assert (ZP := zs_pos p SP). assert (ZM := zs_pos m SM). q9 ms L9.
  unfold velOf3, tracOf3 in H. cbn [nth] in H.
  match type of H with forall i, _ -> inFrame3 _ _ _ ?a ?b ?e i = _ /\ inFrame3 _ _ _ ?x ?y ?z i = _ => rename a into V0; rename b into V1; rename e into V2; rename x into T0; rename y into T1; rename z into T2 end.
  set (s0 := nth 0 (sSs0 sf) 0). set (s1 := nth 1 (sSs0 sf) 0).
  assert (Ew : forall i, (i < 3)%nat -> w i = inFrame3 n s t 0 (s0 + T1) (s1 + T2) i).
  { intros i Hi. unfold w, weldShear. rewrite (tangential_ext 3 _ _ (inFrame3 n s t T0 T1 T2)) by (auto; intros; symmetry; apply H; assumption). rewrite tangential_frame3 by assumption. unfold bg3, inFrame3. fold s0 s1. ring. }
  assert (Et : tn0 3 p m (co3 n) qP qM = T0). { unfold tn0. rewrite <- (dot_ext 3 (inFrame3 n s t T0 T1 T2) (co3 n)) by (auto; intros; apply H; assumption). apply dot_frame3. assumption. }
  assert (En : norm 3 w = sqrt ((s0 + T1) * (s0 + T1) + (s1 + T2) * (s1 + T2))).
  { rewrite (norm_ext 3 w _ Ew). unfold norm. rewrite (proj2 (proj2 (proj2 (dot_frame3 n s t 0 (s0 + T1) (s1 + T2) O)))). f_equal. ring. }
  unfold linSlipWeak3. cbv zeta. unfold at_. cbn [nth]. rewrite strength_R. change (nth 0 (sSs0 sf) 0) with s0. change (nth 1 (sSs0 sf) 0) with s1. rewrite <- En.
  change (strength (sMuf sf) (sSn0 sf) (sCo0 sf) T0) with (stOf sf T0). rewrite Et.
  assert (Ec : c = if rltb (stOf sf T0) (norm 3 w) then stOf sf T0 / norm 3 w else 1).
  { unfold c, factor, rltb. fold w. rewrite Et. destruct (Rlt_dec _ _); reflexivity. }
  destruct (rltb (stOf sf T0) (norm 3 w)) eqn:B.
  - rewrite <- Ec. do 4 eexists. split; [reflexivity|]. split; [reflexivity|]. split; [reflexivity|]. cbn [upd nth sTr sSr sSt]. split; [|split; [|reflexivity]].
    + intros i Hi. destruct (H i Hi) as (HV & HT). rewrite <- HV, <- HT. unfold velOf3, tracOf3. cbn [nth]. rewrite (Ew i Hi), CP, CM. unfold inFrame3, Rdiv. repeat split; ring.
    + apply rltb_lt in B. split; auto.
  - do 4 eexists. split; [reflexivity|]. split; [reflexivity|]. split; [reflexivity|]. cbn [upd nth sTr sSr sSt]. split; [|split; [|reflexivity]].
    + intros i Hi. destruct (H i Hi) as (HV & HT). rewrite <- HV, <- HT. unfold velOf3, tracOf3. cbn [nth]. rewrite (Ew i Hi), CP, CM, Ec. unfold inFrame3, Rdiv. repeat split; ring.
    + apply rltb_le in B. split; [discriminate|lra].
Qed.

(** ** Two dimensions *)
Definition bg2 (nx ny : R) (sf : @lswSf R) (i : nat) : R := nth 0 (sSs0 sf) 0 * co2 (- ny) nx i.

(** component of the welded shear traction along the tangent, with background stress *)
Definition shear2 p m nx ny qP qM (sf : @lswSf R) : R := nth 0 (sSs0 sf) 0 + dot 2 (starT 2 p m (co2 nx ny) qP qM) (co2 (- ny) nx).

Lemma lsw2 p m nx ny qP qM ms dt f g sf : unit2 nx ny -> length ms = 5%nat -> solid p -> solid m ->
  (forall i, (i < 2)%nat -> velOf2 nx ny ms i = starV 2 p m (co2 nx ny) qP qM i /\ tracOf2 nx ny ms i = starT 2 p m (co2 nx ny) qP qM i) ->
  fCsP f = 1 / zs p -> fCsM f = 1 / zs m ->
  let c := factor 2 p m (co2 nx ny) (bg2 nx ny sf) (stOf sf) qP qM in let w := weldShear 2 p m (co2 nx ny) (bg2 nx ny sf) qP qM in
  (stOf sf (tn0 2 p m (co2 nx ny) qP qM) < norm 2 w -> (0 < nth 0 (sSs0 sf) 0 <-> 0 < shear2 p m nx ny qP qM sf)) ->
  exists zM zP per sf', linSlipWeak2 0 Rplus Rminus Rmult Ropp rltb dt f g ms sf = (((zM, zP), per), sf') /\ length zM = 5%nat /\ length zP = 5%nat /\
    (forall i, (i < 2)%nat -> tracOf2 nx ny zM i = starT 2 p m (co2 nx ny) qP qM i + (c - 1) * w i /\ tracOf2 nx ny zP i = starT 2 p m (co2 nx ny) qP qM i + (c - 1) * w i /\
      velOf2 nx ny zP i = starV 2 p m (co2 nx ny) qP qM i + (c - 1) * w i / zs p /\ velOf2 nx ny zM i = starV 2 p m (co2 nx ny) qP qM i - (c - 1) * w i / zs m /\
      nth 0 (sTr sf') 0 * co2 (- ny) nx i = c * w i /\
      nth 0 (sSr sf') 0 * co2 (- ny) nx i = (c - 1) * w i / zs p + (c - 1) * w i / zs m) /\
    (per = true <-> stOf sf (tn0 2 p m (co2 nx ny) qP qM) < norm 2 w) /\ sSt sf' = stOf sf (tn0 2 p m (co2 nx ny) qP qM).
Proof.
  intros O L9 SP SM H CP CM. cbv zeta. set (c := factor _ _ _ _ _ _ _ _). set (w := weldShear _ _ _ _ _ _ _). intros HYP.
  assert (ZP := zs_pos p SP). assert (ZM := zs_pos m SM). q5 ms L9.
  unfold velOf2, tracOf2 in H. cbn [nth] in H.
  match type of H with forall i, _ -> inFrame2 _ _ ?a ?b i = _ /\ inFrame2 _ _ ?x ?y i = _ => rename a into V0; rename b into V1; rename x into T0; rename y into T1 end.
  set (s0 := nth 0 (sSs0 sf) 0) in *.
  assert (Ew : forall i, (i < 2)%nat -> w i = inFrame2 nx ny 0 (s0 + T1) i).
  { intros i Hi. unfold w, weldShear. rewrite (tangential_ext 2 _ _ (inFrame2 nx ny T0 T1)) by (auto; intros; symmetry; apply H; assumption). rewrite tangential_frame2 by assumption. unfold bg2, inFrame2. fold s0. ring. }
  assert (Et : tn0 2 p m (co2 nx ny) qP qM = T0). { unfold tn0. rewrite <- (dot_ext 2 (inFrame2 nx ny T0 T1) (co2 nx ny)) by (auto; intros; apply H; assumption). apply dot_frame2. assumption. }
  assert (Es : shear2 p m nx ny qP qM sf = s0 + T1).
  { unfold shear2. fold s0. f_equal. rewrite <- (dot_ext 2 (inFrame2 nx ny T0 T1) (co2 (- ny) nx)) by (auto; intros; apply H; assumption). unfold unit2 in O. unfold inFrame2. cbv [dot sum seq fold_left co2].
    transitivity (T1 * (nx * nx + ny * ny)); [ring|]. rewrite O. ring. }
  assert (En : norm 2 w = Rabs (s0 + T1)).
  { rewrite (norm_ext 2 w _ Ew). unfold norm. rewrite (proj2 (dot_frame2 nx ny 0 (s0 + T1) O)). rewrite <- sqrt_Rsqr_abs. unfold Rsqr. f_equal. ring. }
  rewrite Es in HYP.
  unfold linSlipWeak2. cbv zeta. unfold at_. cbn [nth]. rewrite strength_R. change (nth 0 (sSs0 sf) 0) with s0. rewrite !fabsR, <- En.
  change (strength (sMuf sf) (sSn0 sf) (sCo0 sf) T0) with (stOf sf T0). rewrite Et in *.
  assert (Ec : c = if rltb (stOf sf T0) (norm 2 w) then stOf sf T0 / norm 2 w else 1).
  { unfold c, factor, rltb. fold w. rewrite Et. destruct (Rlt_dec _ _); reflexivity. }
  assert (SP0 : 0 <= stOf sf T0) by apply strength_pos.
  destruct (rltb (stOf sf T0) (norm 2 w)) eqn:B.
  - apply rltb_lt in B. specialize (HYP B).
    assert (Tr : (if rltb 0 s0 then stOf sf T0 - Rabs s0 else - (stOf sf T0 - Rabs s0)) = c * (s0 + T1) - s0).
    { rewrite Ec, En. unfold rltb. destruct (Rlt_dec 0 s0) as [P|P].
      - assert (Q := proj1 HYP P). rewrite !Rabs_right by lra. field. lra.
      - assert (Q : ~ 0 < s0 + T1) by (intros Q; apply P, HYP, Q). rewrite En in B. rewrite !Rabs_left1 in * by lra. field. lra. }
    rewrite Tr. do 4 eexists. split; [reflexivity|]. split; [reflexivity|]. split; [reflexivity|]. cbn [upd nth sTr sSr sSt]. split; [|split; [|reflexivity]].
    + intros i Hi. destruct (H i Hi) as (HV & HT). rewrite <- HV, <- HT. unfold velOf2, tracOf2. cbn [nth]. rewrite (Ew i Hi), CP, CM. unfold inFrame2, Rdiv. repeat split; ring.
    + split; auto.
  - do 4 eexists. split; [reflexivity|]. split; [reflexivity|]. split; [reflexivity|]. cbn [upd nth sTr sSr sSt]. split; [|split; [|reflexivity]].
    + intros i Hi. destruct (H i Hi) as (HV & HT). rewrite <- HV, <- HT. unfold velOf2, tracOf2. cbn [nth]. rewrite (Ew i Hi), CP, CM, Ec. unfold inFrame2, Rdiv. repeat split; ring.
    + apply rltb_le in B. split; [discriminate|lra].
Qed.

(** ** Net updates *)
Lemma bg3_dot n s t sf : orthonormal n s t -> dot 3 (bg3 s t sf) (co3 n) = 0.
Proof. intros O. rewrite (dot_ext 3 _ (co3 n) (inFrame3 n s t 0 (nth 0 (sSs0 sf) 0) (nth 1 (sSs0 sf) 0)) (co3 n)) by (auto; intros; apply bg3_frame). apply dot_frame3. assumption. Qed.
Lemma bg2_dot nx ny sf : dot 2 (bg2 nx ny sf) (co2 nx ny) = 0.
Proof. unfold bg2. cbv [dot sum seq fold_left co2]. ring. Qed.

Lemma friction3 pref l r n s t cL cR dt f g sf qL qR sP sM : orthonormal (flip pref n) s t -> solid l -> solid r -> length qL = 9%nat -> length qR = 9%nat ->
  fLEqM f = negb pref -> fCsP f = 1 / zs (pick pref l r) -> fCsM f = 1 / zs (pick pref r l) ->
  faultStates 3 (pick pref l r) (pick pref r l) (co3 (flip pref n)) (bg3 s t sf) (stOf sf) (pick pref qL qR) (pick pref qR qL) sP sM ->
  exists per sf', netR 9 (solv3 (flip pref n) s t (jump3 pref l r) l r (cL * sgn pref) (cR * sgn pref)) (perturbR true dt f g sf) dt qL qR =
    ((vscale (- dt * cL) (flux 3 l (co3 n) (pick pref sP sM)), vscale (dt * cR) (flux 3 r (co3 n) (pick pref sM sP))), (per, sf')) /\
  (forall i, (i < 3)%nat -> nth 0 (sTr sf') 0 * co3 s i + nth 1 (sTr sf') 0 * co3 t i = tangential 3 (co3 (flip pref n)) (traction 3 sP (co3 (flip pref n))) i + bg3 s t sf i /\
     nth 0 (sSr sf') 0 * co3 s i + nth 1 (sSr sf') 0 * co3 t i = vel 3 sP i - vel 3 sM i) /\
  (per = false -> forall i, (i < 3)%nat -> vel 3 sP i = vel 3 sM i) /\ sSt sf' = stOf sf (dot 3 (traction 3 sP (co3 (flip pref n))) (co3 (flip pref n))).
Proof.
  intros O SL SR LL LR FM FP FC FS. pose proof (ms_shape3 pref l r (flip pref n) s t qL qR SL SR LL LR) as Sh.
  assert (SP : solid (pick pref l r)) by (unfold pick; destruct pref; assumption). assert (SM : solid (pick pref r l)) by (unfold pick; destruct pref; assumption).
  assert (LP : length (pick pref qL qR) = 9%nat) by (unfold pick; destruct pref; assumption). assert (LM : length (pick pref qR qL) = 9%nat) by (unfold pick; destruct pref; assumption).
  destruct (ms_star3 _ _ _ s t _ _ _ O LP LM Sh) as (L9 & ST). set (ms := addJump 9 _ _ _) in *. assert (U := ortho_unit3 _ _ _ O).
  destruct (lsw3 _ _ _ s t _ _ ms dt f g sf O L9 SP SM ST FP FC) as (zM & zP & per & sf' & E & LzM & LzP & V & PE & St).
  set (n' := flip pref n) in *. set (P := pick pref l r) in *. set (M := pick pref r l) in *. set (qP := pick pref qL qR) in *. set (qM := pick pref qR qL) in *.
  set (c := factor 3 P M (co3 n') (bg3 s t sf) (stOf sf) qP qM) in *. set (w := weldShear 3 P M (co3 n') (bg3 s t sf) qP qM) in *.
  pose proof (fault_char 3 P M (co3 n') (bg3 s t sf) (stOf sf) qP qM dim3 U SP SM LP LM (strength_pos _ _ _ _) sP sM FS) as C. cbv zeta in C. fold c w in C.
  exists per, sf'.
  assert (PT : perturbR true dt f g sf ms = ((pick pref zP zM, pick pref zM zP), (per, sf'))).
  { unfold perturbR, perturb. rewrite E, FM. unfold pick. destruct pref; reflexivity. }
  rewrite (net3 n' s t (jump3 pref l r) l r _ _ (perturbR true dt f g sf) dt qL qR (pick pref zP zM) (pick pref zM zP) (per, sf') O SL SR) by (assumption || (unfold pick; destruct pref; assumption)).
  assert (FL : fluxVT 3 l (co3 n') (velOf3 n' s t (pick pref zP zM)) (tracOf3 n' s t (pick pref zP zM)) = flux 3 l (co3 n') (pick pref sP sM)).
  { symmetry. apply flux_VT; auto; intros i Hi; destruct (C i Hi) as (C1 & C2 & C3 & C4); destruct (V i Hi) as (V1 & V2 & V3 & V4 & _); unfold pick; destruct pref; congruence. }
  assert (FR : fluxVT 3 r (co3 n') (velOf3 n' s t (pick pref zM zP)) (tracOf3 n' s t (pick pref zM zP)) = flux 3 r (co3 n') (pick pref sM sP)).
  { symmetry. apply flux_VT; auto; intros i Hi; destruct (C i Hi) as (C1 & C2 & C3 & C4); destruct (V i Hi) as (V1 & V2 & V3 & V4 & _); unfold pick; destruct pref; congruence. }
  rewrite FL, FR. unfold n' at 1 2. rewrite !flip_flux3. split; [reflexivity|].
  assert (DW : dot 3 (fun i => (c - 1) * w i) (co3 n') = 0).
  { rewrite (dot_ext 3 _ (co3 n') (fun i => (c - 1) * w i + 0 * w i) (co3 n')) by (auto; intros; ring). rewrite dot_lin. unfold w. rewrite weld_dot by (auto using bg3_dot). ring. }
  assert (T0 : forall i, (i < 3)%nat -> traction 3 sP (co3 n') i = starT 3 P M (co3 n') qP qM i + (c - 1) * w i) by (intros; apply C; assumption).
  split; [|split].
  - intros i Hi. destruct (V i Hi) as (_ & _ & _ & _ & V5 & V6). destruct (C i Hi) as (C1 & C2 & C3 & C4).
    pose proof (proj1 (fault_tau 3 P M (co3 n') (bg3 s t sf) qP qM sP (fun i => (c - 1) * w i) i DW Hi T0)) as FT. rewrite V5, V6, C3, C4, FT. fold w. split; ring.
  - intros ->. intros i Hi. destruct (C i Hi) as (C1 & C2 & C3 & C4). rewrite C3, C4. assert (CE : c = 1).
    { unfold c, factor. fold w. destruct (Rlt_dec _ _) as [X|X]; [|reflexivity]. apply PE in X. discriminate. } rewrite CE. unfold Rdiv. ring.
  - rewrite St. f_equal. symmetry. apply (fault_tau 3 P M (co3 n') (bg3 s t sf) qP qM sP (fun i => (c - 1) * w i) 0 DW ltac:(lia) T0).
Qed.

Lemma friction2 pref l r nx ny cL cR dt f g sf qL qR sP sM : unit2 nx ny -> solid l -> solid r -> length qL = 5%nat -> length qR = 5%nat ->
  fLEqM f = negb pref -> fCsP f = 1 / zs (pick pref l r) -> fCsM f = 1 / zs (pick pref r l) ->
  let mx := nx * sgn pref in let my := ny * sgn pref in
  (stOf sf (tn0 2 (pick pref l r) (pick pref r l) (co2 mx my) (pick pref qL qR) (pick pref qR qL)) < Rabs (shear2 (pick pref l r) (pick pref r l) mx my (pick pref qL qR) (pick pref qR qL) sf) ->
    (0 < nth 0 (sSs0 sf) 0 <-> 0 < shear2 (pick pref l r) (pick pref r l) mx my (pick pref qL qR) (pick pref qR qL) sf)) ->
  faultStates 2 (pick pref l r) (pick pref r l) (co2 mx my) (bg2 mx my sf) (stOf sf) (pick pref qL qR) (pick pref qR qL) sP sM ->
  exists per sf', netR 5 (solv2 mx my (jump2 pref l r) l r (cL * sgn pref) (cR * sgn pref)) (perturbR false dt f g sf) dt qL qR =
    ((vscale (- dt * cL) (flux 2 l (co2 nx ny) (pick pref sP sM)), vscale (dt * cR) (flux 2 r (co2 nx ny) (pick pref sM sP))), (per, sf')) /\
  (forall i, (i < 2)%nat -> nth 0 (sTr sf') 0 * co2 (- my) mx i = tangential 2 (co2 mx my) (traction 2 sP (co2 mx my)) i + bg2 mx my sf i /\
     nth 0 (sSr sf') 0 * co2 (- my) mx i = vel 2 sP i - vel 2 sM i) /\
  (per = false -> forall i, (i < 2)%nat -> vel 2 sP i = vel 2 sM i) /\ sSt sf' = stOf sf (dot 2 (traction 2 sP (co2 mx my)) (co2 mx my)).
Proof.
  intros O0 SL SR LL LR FM FP FC mx my HYP FS. assert (O : unit2 mx my) by (unfold mx, my, sgn, unit2 in *; destruct pref; lra).
  pose proof (ms_shape2 pref l r mx my qL qR SL SR LL LR) as Sh.
  assert (SP : solid (pick pref l r)) by (unfold pick; destruct pref; assumption). assert (SM : solid (pick pref r l)) by (unfold pick; destruct pref; assumption).
  assert (LP : length (pick pref qL qR) = 5%nat) by (unfold pick; destruct pref; assumption). assert (LM : length (pick pref qR qL) = 5%nat) by (unfold pick; destruct pref; assumption).
  destruct (ms_star2 _ _ _ _ _ _ _ O LP LM Sh) as (L9 & ST). set (ms := addJump 5 _ _ _) in *. assert (U := unit2_dot _ _ O).
  set (P := pick pref l r) in *. set (M := pick pref r l) in *. set (qP := pick pref qL qR) in *. set (qM := pick pref qR qL) in *.
  assert (En : norm 2 (weldShear 2 P M (co2 mx my) (bg2 mx my sf) qP qM) = Rabs (shear2 P M mx my qP qM sf)).
  { assert (X : forall i, (i < 2)%nat -> weldShear 2 P M (co2 mx my) (bg2 mx my sf) qP qM i = inFrame2 mx my 0 (shear2 P M mx my qP qM sf) i).
    { intros i Hi. unfold weldShear, tangential. change (starT 2 P M (co2 mx my) qP qM i - _) with (perp 2 (co2 mx my) (starT 2 P M (co2 mx my) qP qM) i). rewrite perp_frame2 by assumption. unfold bg2, inFrame2, shear2. ring. }
    rewrite (norm_ext 2 _ _ X). unfold norm. rewrite (proj2 (dot_frame2 mx my 0 _ O)). rewrite <- sqrt_Rsqr_abs. unfold Rsqr. f_equal. ring. }
  destruct (lsw2 P M mx my qP qM ms dt f g sf O L9 SP SM ST FP FC) as (zM & zP & per & sf' & E & LzM & LzP & V & PE & St). { rewrite En. exact HYP. }
  set (c := factor 2 P M (co2 mx my) (bg2 mx my sf) (stOf sf) qP qM) in *. set (w := weldShear 2 P M (co2 mx my) (bg2 mx my sf) qP qM) in *.
  pose proof (fault_char 2 P M (co2 mx my) (bg2 mx my sf) (stOf sf) qP qM dim2 U SP SM LP LM (strength_pos _ _ _ _) sP sM FS) as C. cbv zeta in C. fold c w in C.
  exists per, sf'.
  assert (PT : perturbR false dt f g sf ms = ((pick pref zP zM, pick pref zM zP), (per, sf'))).
  { unfold perturbR, perturb. rewrite E, FM. unfold pick. destruct pref; reflexivity. }
  rewrite (net2 mx my (jump2 pref l r) l r _ _ (perturbR false dt f g sf) dt qL qR (pick pref zP zM) (pick pref zM zP) (per, sf') O SL SR) by (assumption || (unfold pick; destruct pref; assumption)).
  assert (FL : fluxVT 2 l (co2 mx my) (velOf2 mx my (pick pref zP zM)) (tracOf2 mx my (pick pref zP zM)) = flux 2 l (co2 mx my) (pick pref sP sM)).
  { symmetry. apply flux_VT; auto; intros i Hi; destruct (C i Hi) as (C1 & C2 & C3 & C4); destruct (V i Hi) as (V1 & V2 & V3 & V4 & _); unfold pick; destruct pref; congruence. }
  assert (FR : fluxVT 2 r (co2 mx my) (velOf2 mx my (pick pref zM zP)) (tracOf2 mx my (pick pref zM zP)) = flux 2 r (co2 mx my) (pick pref sM sP)).
  { symmetry. apply flux_VT; auto; intros i Hi; destruct (C i Hi) as (C1 & C2 & C3 & C4); destruct (V i Hi) as (V1 & V2 & V3 & V4 & _); unfold pick; destruct pref; congruence. }
  rewrite FL, FR. unfold mx at 1 2, my at 1 2. rewrite !flip_flux2. split; [reflexivity|].
  assert (DW : dot 2 (fun i => (c - 1) * w i) (co2 mx my) = 0).
  { rewrite (dot_ext 2 _ (co2 mx my) (fun i => (c - 1) * w i + 0 * w i) (co2 mx my)) by (auto; intros; ring). rewrite dot_lin. unfold w. rewrite weld_dot by (auto using bg2_dot). ring. }
  assert (T0 : forall i, (i < 2)%nat -> traction 2 sP (co2 mx my) i = starT 2 P M (co2 mx my) qP qM i + (c - 1) * w i) by (intros; apply C; assumption).
  split; [|split].
  - intros i Hi. destruct (V i Hi) as (_ & _ & _ & _ & V5 & V6). destruct (C i Hi) as (C1 & C2 & C3 & C4).
    pose proof (proj1 (fault_tau 2 P M (co2 mx my) (bg2 mx my sf) qP qM sP (fun i => (c - 1) * w i) i DW Hi T0)) as FT. rewrite V5, V6, C3, C4, FT. fold w. split; ring.
  - intros ->. intros i Hi. destruct (C i Hi) as (C1 & C2 & C3 & C4). rewrite C3, C4. assert (CE : c = 1).
    { unfold c, factor. fold w. destruct (Rlt_dec _ _) as [X|X]; [|reflexivity]. apply PE in X. discriminate. } rewrite CE. unfold Rdiv. ring.
  - rewrite St. f_equal. symmetry. apply (fault_tau 2 P M (co2 mx my) (bg2 mx my sf) qP qM sP (fun i => (c - 1) * w i) 0 DW ltac:(lia) T0).
Qed.
