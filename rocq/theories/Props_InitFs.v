(** Property C80: the flux solvers of all elements.  The loop over the faces of the mesh sets the solvers of both sides of every face of the elements: they are exact
    for the materials and normals of the face, seen from the element, and scaled with area and determinant; the momentum of the simulation is conserved. *)
From Coq Require Import Reals Lra.
From Verif Require Import Util MeshConn MatMul ElGen Elastic ElSpec ElWave ElFlux ElTrafo ElMid ElMid2 ElAne ElFluid ElFace InitFs InitFsV ElMom.
From Verif Require Import Util MeshConn MatMul Props_Mat Sparse Ader AderSpec AderV Props_Ader Props_AderR AderEl AderElSpec AderLtsSpec Props_AderEl AderConsSpec AderCons Props_AderCons.
From Verif Require Props_FwaveR.
Local Open Scope nat_scope.

(** initFs, fsWf and isSet over the real numbers *)
Definition initFsR := initFs 0%R 1%R Rplus Rminus Rmult Rdiv Ropp sqrt pow15R Props_FwaveR.rltb reqb.
Definition fsOk (el : elType) (B : bmasks) (I : @fsIn R) (nEls nFas : nat) : Prop := fsWf 0%R Props_FwaveR.rltb el B I nEls nFas.
Definition setUpM (el : elType) := InitFs.setUpFs 0%R 1%R Rplus Rminus Rmult Rdiv Ropp sqrt pow15R Props_FwaveR.rltb reqb el.
(** solids; orthonormal frames of the faces *)
Definition solidMat (m : @mat R) : Prop := exists mt, m = toMat mt /\ solid mt.
Definition solids (el : elType) (I : @fsIn R) : Prop := (forall m, In m (iBg I) -> solidMat m) /\ (forall m, In m (iBgRe I) -> solidMat m) /\
  forall ch, In ch (iCh I) -> frameOk el (fcN ch) (fcS ch) (fcT ch).
(** scaling with area and determinant *)
Definition scalingR (el : elType) (area det : R) : R := scaling 1%R Rplus Rmult Rdiv Ropp el area det.

Lemma frame_neg el n s t : frameOk el n s t -> frameOk el (nv n) s t.
Proof. unfold frameOk. destruct (nDis el =? 2); [apply unit2_neg|apply ortho_neg]. Qed.
Lemma nv_nv (n : R * R * R) : nv (nv n) = n.
Proof. destruct n as [[a b] c]. cbv [vopp fst snd]. now rewrite !Ropp_involutive. Qed.
Lemma toMat_inj a b : toMat a = toMat b -> a = b.
Proof. destruct a, b. unfold toMat. cbn. intros E. now injection E as -> -> ->. Qed.

Lemma side_solid el B I nEls nFas e i m n s t free area : fsOk el B I nEls nFas -> solids el I -> side Ropp B I e i m n s t free area -> solidMat m /\ frameOk el n s t.
Proof.
  intros WF (S1 & S2 & S3) (fa & ch & Hf & Ec & -> & -> & -> & H). pose proof (S3 ch (nth_error_In _ _ Ec)) as F. destruct H as [(eR & Ep & -> & _ & Em)|(l & Ep & -> & _ & Em)].
  - split; [|exact F]. destruct eR as [r|]; [apply S1; eapply nth_error_In; eauto|]. destruct (boundary B ch); [apply S1; eapply nth_error_In; eauto|]. destruct Em as (co & _ & Em). apply S2. eapply nth_error_In; eauto.
  - split; [apply S1; eapply nth_error_In; eauto|now apply frame_neg].
Qed.
Lemma solids_solvable el B I nEls nFas : fsOk el B I nEls nFas -> solids el I -> solvable Ropp B I (setUpM el).
Proof.
  intros WF S e i m0 m n s t free area E0 Hs. destruct (side_solid el B I nEls nFas _ _ _ _ _ _ _ _ WF S Hs) as ((mt & -> & So) & _). destruct S as (S1 & _). destruct (S1 m0 (nth_error_In _ _ E0)) as (mt0 & -> & So0). now apply setUp_exists.
Qed.

(** The loop ends without an error, every face of every element has its solvers. *)
Theorem C80_solvers el B I nEls nFas : fsOk el B I nEls nFas -> solids el I ->
  exists o, initFsR el B I nEls nFas = Ok o /\ length o = nEls /\ (forall e row, nth_error o e = Some row -> length row = nElFas el) /\
    forall e i, e < nEls -> i < nElFas el -> isSet 1%R Rplus Rmult Rdiv Ropp el B I (setUpM el) o e i.
Proof.
  intros WF S. destruct (initFs_ok 0%R 1%R Rplus Rmult Rdiv Ropp Props_FwaveR.rltb el B I nEls nFas (setUpM el) WF (solids_solvable el B I nEls nFas WF S)) as (o & E & (L & Sh) & H). exists o. auto.
Qed.

(** They are exact: seen from the inside of the element, with the material behind the face and the outward normal. *)
Theorem C80_exact el B I nEls nFas o e i : fsOk el B I nEls nFas -> solids el I -> initFsR el B I nEls nFas = Ok o -> e < nEls -> i < nElFas el ->
  (forall fa ch, nth_error (iCh I) fa = Some ch -> has (fcSp ch) (bFree B) = true -> exists l, nth_error (iFaEl I) fa = Some (Some l, None)) ->
  exists m0 m n s t free area det x, nth_error (iBg I) e = Some (toMat m0) /\ side Ropp B I e i (toMat m) n s t free area /\ nth_error (iJDet I) e = Some det /\
    get o e i = Some (Some x) /\ exactSide el m0 m n free (scalingR el area det) x.
Proof.
  intros WF S E He Hi HFr. destruct (C80_solvers el B I nEls nFas WF S) as (o' & E' & _ & _ & H). rewrite E in E'. injection E' as <-.
  destruct (H e i He Hi) as (m0 & m & n & s & t & free & area & d & x & E0 & Hs & Ed & Ex & G). destruct (side_solid el B I nEls nFas _ _ _ _ _ _ _ _ WF S Hs) as ((mt & -> & So) & F).
  destruct S as (S1 & _). destruct (S1 m0 (nth_error_In _ _ E0)) as (mt0 & -> & So0). exists mt0, mt, n, s, t, free, area, d, (scaleFs Rmult (scaling 1%R Rplus Rmult Rdiv Ropp el area d) x).
  repeat (split; [assumption|]). unfold scalingR. apply scaleFs_exact. apply (setUp_exact el mt0 mt n s t free x So0 So); [|exact F|exact Ex].
  intros ->. destruct Hs as (fa & ch & Hf & Ec & _ & _ & _ & [(eR & Ep & _ & Fr & Em)|(l & _ & _ & Fr & _)]); [|discriminate].
  destruct (HFr fa ch Ec (eq_sym Fr)) as (l & Ep'). rewrite Ep in Ep'. injection Ep' as -> ->. unfold boundary in Em. rewrite <- Fr, orb_true_r in Em. rewrite E0 in Em. apply toMat_inj. congruence.
Qed.

(** *** Momentum of a simulation with several partitions *)
Section Momentum.
Variables (cf : conf) (U : @setup R) (mesh : nat -> nat -> face) (lvl : nat -> nat).
(** partitions: input and output of initFs *)
Variables (B : bmasks) (I : nat -> @fsIn R) (nEls nFas : nat -> nat) (o : nat -> @arr R).
(** partition of an element, id of the element there, material *)
Variables (rk lo : nat -> nat) (mt : nat -> material).
Local Notation nFa := (nElFas (cEl cf)).

(** face [fa] of element [el] is face [fid] of its partition with characteristics [ch] *)
Definition faceAt (el fa fid : nat) (ch : @fchar R) : Prop := hasFace (I (rk el)) (lo el) fa fid /\ nth_error (iCh (I (rk el))) fid = Some ch.
(** a face at the boundary of two partitions: the material behind is in the list of the elements, which are received *)
Definition ghost (el fa fid ne : nat) (ch : @fchar R) : Prop := nth_error (iFaEl (I (rk el))) fid = Some (Some (lo el), None) /\ boundary B ch = false /\
  forall co, nth_error (iRecv (I (rk el))) co = Some (lo el, fa) -> nth_error (iBgRe (I (rk el))) co = Some (toMat (mt ne)).
(** the mesh of the partitions: an inner face belongs to two elements of a partition, or is at the boundary of two partitions, which see opposite normals and the same
    area; a free surface belongs to one element *)
Definition partitioned : Prop := (forall el, el < uN U -> lo el < nEls (rk el) /\ nth_error (iBg (I (rk el))) (lo el) = Some (toMat (mt el)) /\ solid (mt el)) /\
  forall el fa, el < uN U -> fa < nFa -> match mesh el fa with
    | Inner ne v f => exists fid fid' ch ch', faceAt el fa fid ch /\ faceAt ne f fid' ch' /\
        (rk ne = rk el /\ fid' = fid /\ (nth_error (iFaEl (I (rk el))) fid = Some (Some (lo el), Some (lo ne)) \/ nth_error (iFaEl (I (rk el))) fid = Some (Some (lo ne), Some (lo el))) \/
         ghost el fa fid ne ch /\ ghost ne f fid' el ch' /\ fcN ch' = nv (fcN ch) /\ fcArea ch' = fcArea ch)
    | Free => exists fid ch, faceAt el fa fid ch /\ nth_error (iFaEl (I (rk el))) fid = Some (Some (lo el), None) /\ has (fcSp ch) (bFree B) = true
    | Outflow => True end.
(** the solver uses the partitions' flux solvers *)
Definition usesFs : Prop := forall el fa x, el < uN U -> fa < nFa -> get (o (rk el)) (lo el) fa = Some (Some x) -> fs0 U el fa = fst (fst x) /\ fs1 U el fa = snd (fst x).
Definition detOf (el : nat) : R := nth (lo el) (iJDet (I (rk el))) 0%R.
Definition initialized : Prop := forall el, el < uN U -> fsOk (cEl cf) B (I (rk el)) (nEls (rk el)) (nFas (rk el)) /\ solids (cEl cf) (I (rk el)) /\
  initFsR (cEl cf) B (I (rk el)) (nEls (rk el)) (nFas (rk el)) = Ok (o (rk el)).

Lemma set_side el fa fid ch : initialized -> partitioned -> usesFs -> el < uN U -> fa < nFa -> faceAt el fa fid ch -> exists m n s t free,
  side Ropp B (I (rk el)) (lo el) fa (toMat m) n s t free (fcArea ch) /\ frameOk (cEl cf) n s t /\ faceSolvers cf U detOf el fa (mt el) m n s t free (fcArea ch).
Proof.
  intros HI HP HU Hel Hfa (Hf & Ec). destruct (HI el Hel) as (WF & S & E). destruct HP as (HP & _). destruct (HP el Hel) as (Hl & Em & _).
  destruct (C80_solvers (cEl cf) B (I (rk el)) (nEls (rk el)) (nFas (rk el)) WF S) as (o' & E' & _ & _ & H). rewrite E in E'. injection E' as <-.
  destruct (H (lo el) fa Hl Hfa) as (m0 & m & n & s & t & free & area & d & x & E0 & Hs & Ed & Ex & G). destruct (side_solid (cEl cf) B (I (rk el)) _ _ _ _ _ _ _ _ _ _ WF S Hs) as ((m' & -> & So) & F).
  rewrite Em in E0. injection E0 as <-. assert (area = fcArea ch). { destruct Hs as (fid' & ch' & Hf' & Ec' & _ & _ & -> & _). rewrite (hasFace_fun (I (rk el)) _ _ _ _ Hf Hf') in Ec. rewrite Ec in Ec'. now injection Ec' as ->. }
  subst area. exists m', n, s, t, free. split; [exact Hs|]. split; [exact F|]. exists x. split; [exact Ex|]. destruct (HU el fa _ Hel Hfa G) as (U0 & U1). cbv zeta. unfold detOf. rewrite (nth_error_nth _ _ 0%R Ed). now split.
Qed.
Lemma solvers_elastic : initialized -> partitioned -> usesFs -> meshSym cf U mesh lvl -> elasticFaces cf U mesh mt detOf.
Proof.
  intros HI HP HU HS el fa Hel Hfa. split; [now apply (proj1 HP)|]. split.
  { destruct (HI el Hel) as (WF & _). destruct (proj1 HP el Hel) as (Hl & _). destruct WF as (_ & _ & _ & _ & L & _ & W & _). unfold detOf. destruct (nth_error (iJDet (I (rk el))) (lo el)) as [d|] eqn:Ed; [|apply nth_error_None in Ed; lia].
    rewrite (nth_error_nth _ _ 0%R Ed). specialize (W _ _ Ed). unfold Props_FwaveR.rltb in W. destruct (Rlt_dec 0 d); [assumption|discriminate]. }
  pose proof (proj2 HP el fa Hel Hfa) as H. destruct (mesh el fa) as [| |ne v f] eqn:Em; [exact Logic.I| |].
  - destruct H as (fid & ch & Hf & Ep & Fr). destruct (set_side el fa fid ch HI HP HU Hel Hfa Hf) as (m & n & s & t & free & Hs & F & FS).
    destruct Hs as (fid' & ch' & Hf' & Ec' & _ & _ & _ & Hs). destruct Hf as (Hf & Ec). rewrite <- (hasFace_fun _ _ _ _ _ Hf Hf') in *. rewrite Ec in Ec'. injection Ec' as <-. rewrite Ep in Hs.
    destruct Hs as [(eR & X & _ & -> & Hm)|(l & X & _)]; [|discriminate X]. injection X as <-. unfold boundary in Hm. rewrite Fr, orb_true_r in Hm.
    destruct (proj1 HP el Hel) as (_ & Hm' & _). rewrite Hm' in Hm. assert (mt el = m) by (apply toMat_inj; congruence). subst m. rewrite Fr in FS. exists n, s, t, (fcArea ch). now split.
  - destruct (HS el fa ne v f Hel Hfa Em) as (Hne & Hf & _). destruct H as (fid & fid' & ch & ch' & Hfi & Hfi' & H).
    destruct (set_side el fa fid ch HI HP HU Hel Hfa Hfi) as (m & n & s & t & free & Hs & F & FS). destruct (set_side ne f fid' ch' HI HP HU Hne Hf Hfi') as (m' & n' & s' & t' & free' & Hs' & F' & FS').
    destruct Hs as (x & y & X1 & X2 & _ & _ & _ & Hs). destruct Hs' as (x' & y' & X1' & X2' & _ & _ & _ & Hs'). destruct Hfi as (Hfi & Ec), Hfi' as (Hfi' & Ec').
    rewrite <- (hasFace_fun _ _ _ _ _ Hfi X1) in *. rewrite <- (hasFace_fun _ _ _ _ _ Hfi' X1') in *. rewrite Ec in X2. injection X2 as <-. rewrite Ec' in X2'. injection X2' as <-. clear X1 X1' x x'.
    destruct (proj1 HP el Hel) as (_ & ML & _), (proj1 HP ne Hne) as (_ & MR & _).
    assert (Mt : forall a b, Some (toMat a) = Some (toMat b) -> a = b) by (intros a b X; apply toMat_inj; congruence).
    assert (NF : forall e fi c, nth_error (iFaEl (I (rk el))) fi = Some (Some e, Some c) -> e <> c /\ (forall ch, nth_error (iCh (I (rk el))) fi = Some ch -> (exists i, hasFace (I (rk el)) c i fi) -> has (fcSp ch) (bFree B) = false)).
    { intros e fi c X. destruct (HI el Hel) as (WF & _). destruct WF as (L1 & L2 & _ & _ & _ & _ & _ & _ & W & _). assert (fi < nFas (rk el)) by (rewrite <- L1; apply nth_error_Some; congruence).
      destruct (nth_error (iCh (I (rk el))) fi) as [c'|] eqn:Ec2; [|apply nth_error_None in Ec2; lia]. destruct (W fi _ c' X Ec2) as (l & Xl & _ & _ & _ & Nl & _ & Nf). cbn in Xl. injection Xl as ->.
      split; [auto|]. intros ch2 Xc Hx. injection Xc as <-. now apply Nf. }
    destruct H as [(Er & -> & [Ep|Ep])|((Ep & Bf & Gm) & (Ep' & Bf' & Gm') & En & Ea)].
    + rewrite Er in *. rewrite Ec in Ec'. injection Ec' as <-. rewrite Ep in Hs, Hs'. destruct (NF _ _ _ Ep) as (Ne & Fr). rewrite (Fr ch Ec (ex_intro (fun i => hasFace _ _ i _) f Hfi')) in Hs.
      destruct Hs as [(eR & X & -> & -> & Hm)|(l & X & _)]; [|congruence]. injection X as <-. destruct Hs' as [(eR & X & _)|(l & X & -> & -> & Hm')]; [congruence|]. injection X as <-.
      rewrite ML in Hm'. rewrite MR in Hm. apply Mt in Hm, Hm'. subst m m'. eexists _, _, _, _, _, _. split; [exact F|]. split; [exact F'|]. split; [exact FS|exact FS'].
    + rewrite Er in *. rewrite Ec in Ec'. injection Ec' as <-. rewrite Ep in Hs, Hs'. destruct (NF _ _ _ Ep) as (Ne & Fr). rewrite (Fr ch Ec (ex_intro (fun i => hasFace _ _ i _) fa Hfi)) in Hs'.
      destruct Hs' as [(eR & X & -> & -> & Hm')|(l & X & _)]; [|congruence]. injection X as <-. destruct Hs as [(eR & X & _)|(l & X & -> & -> & Hm)]; [congruence|]. injection X as <-.
      rewrite ML in Hm'. rewrite MR in Hm. apply Mt in Hm, Hm'. subst m m'. exists (nv (fcN ch)), s, t, s', t', (fcArea ch). rewrite nv_nv. repeat (split; [assumption|]). assumption.
    + rewrite Ep in Hs. rewrite Ep' in Hs'. destruct Hs as [(eR & X & -> & -> & Hm)|(l & X & _)]; [|discriminate X]. injection X as <-. destruct Hs' as [(eR & X & -> & -> & Hm')|(l & X & _)]; [|discriminate X]. injection X as <-.
      rewrite Bf in Hm. rewrite Bf' in Hm'. destruct Hm as (co & Hr & Hm), Hm' as (co' & Hr' & Hm'). rewrite (Gm co Hr) in Hm. rewrite (Gm' co' Hr') in Hm'. apply Mt in Hm, Hm'. subst m m'.
      unfold boundary in Bf, Bf'. apply orb_false_iff in Bf, Bf'. destruct Bf as (_ & Bf), Bf' as (_ & Bf'). rewrite Bf in FS. rewrite Bf' in FS'. rewrite En in F', FS'. rewrite Ea in FS'.
      eexists _, _, _, _, _, _. split; [exact F|]. split; [exact F'|]. split; [exact FS|exact FS'].
Qed.

(** The simulation with these flux solvers conserves the momentum of the elements. *)
Theorem C80_momentum dt hdt q0 Q c i : 0 < nModes (cEl cf) (cSp cf) -> 0 < nModesFa (cEl cf) (cSp cf) -> i < nDis (cEl cf) ->
  reference cf U mesh -> initialized -> partitioned -> usesFs -> meshSym cf U mesh lvl -> closed cf U mesh -> scheme algR cf U mesh lvl dt hdt q0 Q -> synchronized U lvl c ->
  total algR cf U (momentumW cf mt detOf i) (fun el => Q el (c el)) = total algR cf U (momentumW cf mt detOf i) q0.
Proof. intros H1 H2 Hi HR HI HP HU HS HO HQ Hc. apply (C79_momentum cf U mesh lvl mt detOf dt hdt q0 Q c i); auto. now apply solvers_elastic. Qed.
End Momentum.

(** *** Two triangles with corners (0,0), (4,0), (0,3) and (4,0), (4,3), (0,3), different materials, free surfaces: in one and in two partitions *)
Definition xiB : bmasks := {| bFree := 1; bOut := 2; bPer := 4 |}.
Definition xiZ : R * R * R := (0, 0, 0)%R.
Definition xiF (x y a : R) (sp : N) : @fchar R := {| fcN := (x, y, 0%R); fcS := xiZ; fcT := xiZ; fcArea := a; fcSp := sp |}.
Definition xiM0 : material := {| rho := 1; lam := 1; mu := 1 |}.
Definition xiM1 : material := {| rho := 2; lam := 3; mu := 1 |}.
Definition xiMt (el : nat) : material := match el with 0 => xiM0 | _ => xiM1 end.
Definition xiI : @fsIn R := {| iIn := 2; iRecv := []; iFaEl := [(Some 0, None); (Some 0, None); (Some 0, Some 1); (Some 1, None); (Some 1, None)]; iElFa := [[0; 1; 2]; [3; 2; 4]];
  iCh := [xiF 0 (-1) 4 1; xiF (-1) 0 3 1; xiF (3 / 5) (4 / 5) 5 0; xiF 1 0 3 1; xiF 0 1 4 1]; iBg := [toMat xiM0; toMat xiM1]; iBgRe := []; iJDet := [12; 12]%R |}.
Definition xiP (r : nat) : @fsIn R := match r with
  | 0 => {| iIn := 0; iRecv := [(0, 2)]; iFaEl := [(Some 0, None); (Some 0, None); (Some 0, None)]; iElFa := [[0; 1; 2]]; iCh := [xiF 0 (-1) 4 1; xiF (-1) 0 3 1; xiF (3 / 5) (4 / 5) 5 0];
            iBg := [toMat xiM0]; iBgRe := [toMat xiM1]; iJDet := [12]%R |}
  | _ => {| iIn := 0; iRecv := [(0, 1)]; iFaEl := [(Some 0, None); (Some 0, None); (Some 0, None)]; iElFa := [[1; 0; 2]]; iCh := [xiF (- (3 / 5)) (- (4 / 5)) 5 0; xiF 1 0 3 1; xiF 0 1 4 1];
            iBg := [toMat xiM1]; iBgRe := [toMat xiM0]; iJDet := [12]%R |} end.
Lemma pos_rltb x : (0 < x)%R -> Props_FwaveR.rltb 0 x = true.
Proof. intros H. unfold Props_FwaveR.rltb. destruct (Rlt_dec 0 x); [reflexivity|contradiction]. Qed.
Lemma xi_solid0 : solid xiM0. Proof. cbv -[Rlt Rplus Rmult IZR]. lra. Qed.
Lemma xi_solid1 : solid xiM1. Proof. cbv -[Rlt Rplus Rmult IZR]. lra. Qed.
Ltac nthe H := match type of H with nth_error _ ?k = Some _ => repeat (destruct k as [|k]; cbn in H; try discriminate H); try (injection H as <-) end.
Ltac nd := repeat constructor; cbn; intuition congruence.
Ltac hf := eexists; split; reflexivity.
Example xi_ok : fsOk TRIA3 xiB xiI 2 5.
Proof.
  split; [reflexivity|]. split; [reflexivity|]. split; [reflexivity|]. split; [reflexivity|]. split; [reflexivity|]. split; [|split; [|split; [|split; [|split]]]].
  - intros e row E. nthe E; (split; [reflexivity|]); (split; [nd|]); intros fa Hfa; cbn in Hfa; intuition lia.
  - intros e d E. nthe E; apply pos_rltb; lra.
  - intros fa ch E. nthe E; apply pos_rltb; cbn; lra.
  - intros fa p ch E E'. nthe E; nthe E'; eexists; (split; [reflexivity|]); (split; [cbn; lia|]); cbv zeta.
    + split; [left; exists 0; hf|left; reflexivity].
    + split; [left; exists 1; hf|left; reflexivity].
    + split; [left; exists 2; hf|]. cbn [snd]. split; [lia|]. split; [lia|]. split; [left; exists 1; hf|]. intros _. split; [exists 2; hf|reflexivity].
    + split; [left; exists 0; hf|left; reflexivity].
    + split; [left; exists 2; hf|left; reflexivity].
  - constructor.
  - intros e i fa (row & E & E'). nthe E; nthe E'; (eexists; split; [reflexivity|]); cbn; auto.
Qed.
Example xi_solids : solids TRIA3 xiI.
Proof.
  split; [|split].
  - intros m [<-|[<-|[]]]; [exists xiM0; split; [reflexivity|exact xi_solid0]|exists xiM1; split; [reflexivity|exact xi_solid1]].
  - intros m [].
  - intros ch Hin. cbn in Hin. repeat (destruct Hin as [<-|Hin]); try contradiction; cbv -[Rplus Rmult Rdiv IZR Ropp]; lra.
Qed.
(** the solvers of all faces are set and exact *)
Example xi_solvers : exists o, initFsR TRIA3 xiB xiI 2 5 = Ok o /\ forall e i, e < 2 -> i < 3 -> exists m0 m n s t free area x, side Ropp xiB xiI e i (toMat m) n s t free area /\
  get o e i = Some (Some x) /\ exactSide TRIA3 m0 m n free (- area / 12)%R x.
Proof.
  destruct (C80_solvers TRIA3 xiB xiI 2 5 xi_ok xi_solids) as (o & E & _). exists o. split; [exact E|]. intros e i He Hi.
  destruct (C80_exact TRIA3 xiB xiI 2 5 o e i xi_ok xi_solids E He Hi) as (m0 & m & n & s & t & free & area & d & x & _ & Hs & Ed & G & X).
  { intros fa ch Ec Fr. nthe Ec; cbn in Fr; try discriminate Fr; eexists; reflexivity. }
  exists m0, m, n, s, t, free, area, x. split; [exact Hs|]. split; [exact G|]. assert (d = 12%R) by (nthe Ed; reflexivity). subst d. exact X.
Qed.

(** two partitions *)
Example xp_ok r : fsOk TRIA3 xiB (xiP r) 1 3.
Proof.
  assert (H : r = 0 \/ xiP r = xiP 1) by (destruct r as [|r]; [now left|right; reflexivity]).
  destruct H as [-> | ->]; (split; [reflexivity|]; split; [reflexivity|]; split; [reflexivity|]; split; [reflexivity|]; split; [reflexivity|]; split; [|split; [|split; [|split; [|split]]]]);
    try (intros e row E; nthe E; (split; [reflexivity|]); (split; [nd|]); intros fa Hfa; cbn in Hfa; intuition lia);
    try (intros e d E; nthe E; apply pos_rltb; lra); try (intros fa ch E; nthe E; apply pos_rltb; cbn; lra);
    try (intros e i fa (row & E & E'); nthe E; nthe E'; (eexists; split; [reflexivity|]); cbn; auto); try nd.
  - intros fa p ch E E'. nthe E; nthe E'; eexists; (split; [reflexivity|]); (split; [cbn; lia|]); cbv zeta.
    + split; [left; exists 0; hf|left; reflexivity].
    + split; [left; exists 1; hf|left; reflexivity].
    + split; [left; exists 2; hf|right]. split; [reflexivity|]. split; [cbn; lia|]. exists 2, 0. split; [hf|]. split; [reflexivity|cbn; lia].
  - intros fa p ch E E'. nthe E; nthe E'; eexists; (split; [reflexivity|]); (split; [cbn; lia|]); cbv zeta.
    + split; [left; exists 1; hf|right]. split; [reflexivity|]. split; [cbn; lia|]. exists 1, 0. split; [hf|]. split; [reflexivity|cbn; lia].
    + split; [left; exists 0; hf|left; reflexivity].
    + split; [left; exists 2; hf|left; reflexivity].
Qed.
Example xp_solids r : solids TRIA3 (xiP r).
Proof.
  assert (H : r = 0 \/ xiP r = xiP 1) by (destruct r as [|r]; [now left|right; reflexivity]).
  assert (S0 : solidMat (toMat xiM0)) by (exists xiM0; split; [reflexivity|exact xi_solid0]). assert (S1 : solidMat (toMat xiM1)) by (exists xiM1; split; [reflexivity|exact xi_solid1]).
  destruct H as [-> | ->]; (split; [|split]); try (intros m [<-|[]]; assumption); intros ch Hin; cbn in Hin; repeat (destruct Hin as [<-|Hin]); try contradiction; cbv -[Rplus Rmult Rdiv IZR Ropp]; lra.
Qed.
Definition xpCf : conf := Build_conf TRIA3 1 1 1 0.
Definition xpFs (o : nat -> @arr R) (h : @solvers R -> list R) : list (list (list R)) := map (fun r => map (fun i => match get (o r) 0 i with Some (Some x) => h x | _ => [] end) [0; 1; 2]) [0; 1].
Definition xpU (o : nat -> @arr R) : @setup R := {| uStT := [[0]; [0]]%R; uSt := [[0]; [0]]%R; uLN := repeat [1%R] 6; uFT := repeat [1%R] 3; uRf := [];
  uS := {| mStarE := []; mStarA := []; mSrcA := []; mFsE0 := xpFs o (fun x => fst (fst x)); mFsE1 := xpFs o (fun x => snd (fst x)); mFsA0 := []; mFsA1 := [] |}; uN := 2 |}.
Definition xpQ (el : nat) : @state R := (fun x y => INR (el + x), fun _ _ _ => 0%R).
Example xp_momentum : exists o Q, (forall r, initFsR TRIA3 xiB (xiP r) 1 3 = Ok (o r)) /\
  scheme algR xpCf (xpU o) xcMesh (fun _ => 0) (fun _ _ => 1%R) (fun _ _ => (1 / 2)%R) xpQ Q /\
  forall i k, i < 2 -> let w := momentumW xpCf xiMt (fun _ => 12%R) i in total algR xpCf (xpU o) w (fun el => Q el k) = total algR xpCf (xpU o) w xpQ.
Proof.
  destruct (C80_solvers TRIA3 xiB (xiP 0) 1 3 (xp_ok 0) (xp_solids 0)) as (o0 & E0 & _ & _ & H0). destruct (C80_solvers TRIA3 xiB (xiP 1) 1 3 (xp_ok 1) (xp_solids 1)) as (o1 & E1 & _ & _ & H1).
  set (o := fun r => match r with 0 => o0 | _ => o1 end). assert (E : forall r, initFsR TRIA3 xiB (xiP r) 1 3 = Ok (o r)) by (intros [|r]; [exact E0|exact E1]).
  exists o, (theQ algR xpCf (xpU o) xcMesh (fun _ => 0) (fun _ _ => 1%R) (fun _ _ => (1 / 2)%R) xpQ). split; [exact E|].
  assert (HQ : scheme algR xpCf (xpU o) xcMesh (fun _ => 0) (fun _ _ => 1%R) (fun _ _ => (1 / 2)%R) xpQ (theQ algR xpCf (xpU o) xcMesh (fun _ => 0) (fun _ _ => 1%R) (fun _ _ => (1 / 2)%R) xpQ)).
  { apply theQ_scheme. intros el fa ne v f Hel Hfa Em. cbn. two Hel; three Hfa; cbn in Em; try discriminate Em; injection Em as <- <- <-; cbn; lia. }
  split; [exact HQ|]. intros i k Hi w.
  transitivity (total algR xpCf (xpU o) (momentumW xpCf xiMt (detOf xiP (fun el => el) (fun _ => 0)) i) (fun el => theQ algR xpCf (xpU o) xcMesh (fun _ => 0) (fun _ _ => 1%R) (fun _ _ => (1 / 2)%R) xpQ el k)).
  { unfold total. apply (sum_ext algR). intros el Hel. apply (sum_ext algR). intros x Hx. unfold w, momentumW, detOf. two Hel; reflexivity. }
  transitivity (total algR xpCf (xpU o) (momentumW xpCf xiMt (detOf xiP (fun el => el) (fun _ => 0)) i) xpQ).
  2: { unfold total. apply (sum_ext algR). intros el Hel. apply (sum_ext algR). intros x Hx. unfold w, momentumW, detOf. two Hel; reflexivity. }
  apply (C80_momentum xpCf (xpU o) xcMesh (fun _ => 0) xiB xiP (fun _ => 1) (fun _ => 3) o (fun el => el) (fun _ => 0) xiMt (fun _ _ => 1%R) (fun _ _ => (1 / 2)%R) xpQ _ (fun _ => k) i); try exact HQ; try (cbn; lia).
  - split; [|split; [|split]].
    + intros di l Hdi Hl. cbn in Hdi. assert (l = 0) by (cbv in Hl; lia). subst. destruct di as [|[|di]]; [reflexivity|reflexivity|lia].
    + intros fa m Hfa Hm. cbv in Hm. lia.
    + intros fa fa' Hfa Hfa'. three Hfa; three Hfa'; reflexivity.
    + intros el fa ne v f l Hel Hfa Em Hl. assert (l = 0) by (cbv in Hl; lia). subst. two Hel; three Hfa; cbn in Em; try discriminate Em; injection Em as <- <- <-; reflexivity.
  - intros el Hel. split; [apply xp_ok|]. split; [apply xp_solids|apply E].
  - split.
    + intros el Hel. two Hel; (split; [lia|]); (split; [reflexivity|]); [exact xi_solid0|exact xi_solid1].
    + intros el fa Hel Hfa. two Hel; three Hfa; cbn [xcMesh];
        try (eexists _, _; split; [split; [hf|reflexivity]|]; split; reflexivity);
        (eexists _, _, _, _; split; [split; [hf|reflexivity]|]; split; [split; [hf|reflexivity]|]; right; split; [|split; [|split]]);
        try (split; [reflexivity|]; split; [reflexivity|]; intros co Hco; nthe Hco; reflexivity); try reflexivity;
        cbv -[Ropp Rdiv IZR]; repeat f_equal; lra.
  - intros el fa x Hel Hfa G. unfold fs0, fs1. two Hel; three Hfa; cbn [xpU uS mFsE0 mFsE1 xpFs map nth]; rewrite G; now split.
  - intros el fa ne v f Hel Hfa Em. two Hel; three Hfa; cbn in Em; try discriminate Em; injection Em as <- <- <-; (split; [cbn; lia|]); (split; [cbn; lia|]); (split; [lia|]); exists 0; reflexivity.
  - intros el fa Hel Hfa. two Hel; three Hfa; cbn; discriminate.
  - intros el ne Hel Hne. lia.
Qed.

(** A periodic face which the right element knows alone gets no solvers, although the rest of the input is as above: AderDgInit.hpp 513 tests the left element. *)
Definition xrI (lr : option nat * option nat) : @fsIn R := {| iIn := 2; iRecv := []; iFaEl := [(Some 0, None); (Some 0, None); (Some 0, None); lr; (Some 1, None); (Some 1, None)]; iElFa := [[0; 1; 2]; [3; 4; 5]];
  iCh := [xiF 0 (-1) 4 1; xiF (-1) 0 3 1; xiF (3 / 5) (4 / 5) 5 1; xiF (3 / 5) (4 / 5) 5 4; xiF 1 0 3 1; xiF 0 1 4 1]; iBg := [toMat xiM0; toMat xiM1]; iBgRe := []; iJDet := [12; 12]%R |}.
Definition xrFs (l r : @mat R) (n s t : R * R * R) (free : bool) : res (@solvers R) := Ok (([], []), ([], [])).
Ltac rltbs := repeat (match goal with |- context [Props_FwaveR.rltb 0%R ?x] => rewrite (pos_rltb x) by lra end).
Example xr_right_alone : exists o, initFsOf 0%R 1%R Rplus Rmult Rdiv Ropp Props_FwaveR.rltb TRIA3 xrFs xiB (xrI (Some 0, Some 1)) 2 6 = Ok o /\ get o 1 0 = Some None /\ get o 1 1 <> Some None.
Proof.
  cbv -[Rlt_dec Rdiv Ropp Rmult Rplus IZR]. repeat (match goal with |- context [Rlt_dec 0%R ?x] => destruct (Rlt_dec 0%R x); [|exfalso; lra] end; cbn). eexists. repeat split. discriminate.
Qed.
Example xr_left_alone : exists o x, initFsOf 0%R 1%R Rplus Rmult Rdiv Ropp Props_FwaveR.rltb TRIA3 xrFs xiB (xrI (Some 1, Some 0)) 2 6 = Ok o /\ get o 1 0 = Some (Some x).
Proof.
  cbv -[Rlt_dec Rdiv Ropp Rmult Rplus IZR]. repeat (match goal with |- context [Rlt_dec 0%R ?x] => destruct (Rlt_dec 0%R x); [|exfalso; lra] end; cbn). eexists _, _. split; reflexivity.
Qed.

Print Assumptions C80_solvers.
Print Assumptions C80_exact.
Print Assumptions C80_momentum.
