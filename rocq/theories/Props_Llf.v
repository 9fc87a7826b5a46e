(** C97: the local Lax-Friedrichs solver of the sub-cells of seismic simulations is a conservative, stable finite-volume scheme. *)
From Coq Require Import List Arith Bool Reals Lra Lia.
From Verif Require Import Util ElSpec ElWave ElMid ElFace Llf LlfSpec LlfV LlfW LlfE LlfG LlfH.
Import ListNotations.
Open Scope R_scope.

Lemma ready_ok d nsf nsc mats e mem : dim d -> wfElem d mats e -> (0 < nsc)%nat -> ready d nsf nsc mats e mem ->
  (forall ty, (ty < nPlanes e)%nat -> own d mats e (pscale nsf nsc e ty) mem ty) /\ (forall ty, (ty < nFaces e)%nat -> oth d mats e (pscale nsf nsc e ty) mem ty).
Proof.
  intros D W N (mem0 & L1 & L2 & E). destruct (init_ok d nsf nsc mats e D W N mem0) as (mem' & E' & _ & H); [split; auto|]. assert (mem' = mem) by congruence. subst mem'.
  split; intros ty Ht; [apply (H ty Ht)|]. apply (H ty). unfold nPlanes, nFaces in *. lia.
Qed.
Lemma combine_fst {A B} (F : A -> R) (g : list B) (l : list A) : (length g <= length l)%nat -> map (fun x => F (fst x)) (combine l g) = map F (firstn (length g) l).
Proof. revert l. induction g as [|b g IH]; intros [|a l] H; cbn in *; auto; try lia. f_equal. apply IH. lia. Qed.

(** ** An element with 3x3 sub-cells (tools/edge_pre/edge_pre/sc/grid/Quad.py, degree 1): sub-cell 0 in the middle, 1-8 around it, ghost sub-cells 9-20 *)
Definition m1 : material := {| rho := 1; lam := 1; mu := 1 |}.
Definition fac (x y : R) : face := {| fN := (x, y, 0); fS := (0, 0, 0); fT := (0, 0, 0); fAr := 1 |}.
Definition quad : elem := {| eId := 1; eAdj := [Some 0%nat; Some 2%nat; None; None]; eFa := [fac 0 1; fac 1 0; fac 0 1; fac (-1) 0]; eAdd := []; eVol := 1 |}.
Definition sb (a : nat) (t : sfType) : subface := {| sAd := a; sTy := t |}.
Definition quadGrid : list (list subface) :=
  [ [sb 2 (InnerLeft 0); sb 4 (InnerLeft 1); sb 6 (InnerLeft 2); sb 8 (InnerLeft 3)];
    [sb 9 (Outer 0); sb 2 (InnerLeft 1); sb 8 (InnerLeft 2); sb 20 (Outer 3)];
    [sb 10 (Outer 0); sb 3 (InnerLeft 1); sb 0 (InnerLeft 2); sb 1 (InnerLeft 3)];
    [sb 11 (Outer 0); sb 12 (Outer 1); sb 4 (InnerLeft 2); sb 2 (InnerLeft 3)];
    [sb 3 (InnerLeft 0); sb 13 (Outer 1); sb 5 (InnerLeft 2); sb 0 (InnerLeft 3)];
    [sb 4 (InnerLeft 0); sb 14 (Outer 1); sb 15 (Outer 2); sb 6 (InnerLeft 3)];
    [sb 0 (InnerLeft 0); sb 5 (InnerLeft 1); sb 16 (Outer 2); sb 7 (InnerLeft 3)];
    [sb 8 (InnerLeft 0); sb 6 (InnerLeft 1); sb 17 (Outer 2); sb 18 (Outer 3)];
    [sb 1 (InnerLeft 0); sb 0 (InnerLeft 1); sb 7 (InnerLeft 2); sb 19 (Outer 3)] ].
Definition quadMats : list material := [m1; m1; m1].
(** a state in the middle, zeros elsewhere *)
Definition quadDofs : list (list R) := [1; 2; 3; 4; 5] :: repeat (zeros 5) 20.

Lemma quad_wf : wfElem 2 quadMats quad.
Proof.
  unfold wfElem. cbn. repeat split; try lia; try lra.
  - intros a [E|[E|[E|[E|[]]]]]; try discriminate; injection E as <-; lia.
  - intros f H. decompose [or] H; subst; try contradiction; unfold validFrame, unit2, fac; cbn; lra.
Qed.
Lemma quad_grid : wfGrid quad 21 quadGrid.
Proof. intros sc H. cbn in H. decompose [or] H; subst; try contradiction; (split; [reflexivity|]); intros s K; cbn in K; decompose [or] K; subst; try contradiction; cbn; lia. Qed.
Lemma quad_dofs : wfDofs 2 9 quadGrid quadDofs.
Proof. repeat split; [cbn; lia|]. intros q [<-|H]; [reflexivity|]. apply repeat_spec in H. subst. reflexivity. Qed.
Lemma quad_closed sc : In sc quadGrid -> closed 2 3 quad sc.
Proof. intros H i Hi. destruct i as [|[|i]]; [| |lia]; cbn in H; decompose [or] H; subst; try contradiction; cbv [sb sTy sAd map rsum fold_right sfArea sfNormal sfPlane plane planeDir outward nFaces turn neg nrm quad eFa eAdd eAdj eId app nth length Nat.ltb Nat.leb negb fAr fN fac co3 fst snd]; simpl; field. Qed.
Lemma quad_paired : paired 2 3 quad quadGrid.
Proof.
  exists (fun p => match sfAt quadGrid p with Some s => if inner s then (sAd s, ((snd p + 2) mod 4)%nat) else p | None => p end).
  intros (i & k) s E B. do 9 (destruct i as [|i]; [do 4 (destruct k as [|k]; [cbn in E; injection E as <-; cbn in B; try discriminate; cbn; (split; [reflexivity|]); eexists; (split; [reflexivity|]); (split; [reflexivity|]); (split; [reflexivity|]); (split; [unfold sfArea; cbn; reflexivity|]);
    intros j Hj; (destruct j as [|[|j]]; [| |lia]); cbv; ring|]); cbn in E; destruct k; discriminate|]). cbn in E. destruct i; discriminate.
Qed.

(** ** The solvers *)
(** The matrix of a sub-face is that of the exact flux in the direction of its normal, times minus one half. *)
Theorem C97_central : forall d m f, dim d -> validFrame d f ->
  exists C, centralL d m f = Ok C /\ forall q, length q = nQt d -> mv (nQt d) (nQt d) C q = vscale (- (1 / 2)) (flux d m (nrm f) q).
Proof. intros d m f D V. destruct (central_ok d m f D V) as (C & E & _ & S). eauto. Qed.
Print Assumptions C97_central.
Example C97_central_ex : validFrame 2 (fac (3 / 5) (4 / 5)) /\ validFrame 3 {| fN := (0, 1, 0); fS := (0, 0, 1); fT := (1, 0, 0); fAr := 2 |}.
Proof. split; cbv [validFrame Nat.eqb unit2 fac fN fS fT fst snd]; [lra|]. cbv [orthonormal fst snd]. repeat split; ring. Qed.

(** The set-up succeeds for every element, whatever the memory holds. *)
Theorem C97_setup : forall d nsf nsc mats e mem0, dim d -> wfElem d mats e -> (0 < nsc)%nat -> length (fst mem0) = (nPlanes e + nFaces e)%nat -> length (snd mem0) = (nPlanes e + nFaces e)%nat ->
  exists mem, init d (nFaces e) (nPlanes e) nsf nsc (eId e) (eAdj e) (eFa e) (eAdd e) mats (eVol e) mem0 = Ok mem /\ ready d nsf nsc mats e mem.
Proof.
  intros d nsf nsc mats e mem0 D W N L1 L2. destruct (init_ok d nsf nsc mats e D W N mem0) as (mem & E & _); [split; auto|]. exists mem. split; auto. exists mem0. auto.
Qed.
Print Assumptions C97_setup.
Example C97_setup_ex : exists mem, ready 2 3 9 quadMats quad mem.
Proof. destruct (C97_setup 2 3 9 quadMats quad (repeat [] 8, repeat 0 8)) as (mem & _ & H); [left; reflexivity|apply quad_wf|lia|reflexivity|reflexivity|eauto]. Qed.

(** ** The time step *)
(** A step adds to every sub-cell minus time step times area over volume times local Lax-Friedrichs flux, for each of its sub-faces; or the given net-updates at faces that ask for it. *)
Theorem C97_step : forall d nsf nsc mats e mem dt g netUp dofs out, dim d -> wfElem d mats e -> (0 < nsc)%nat -> ready d nsf nsc mats e mem -> wfGrid e (length dofs) g -> wfDofs d nsc g dofs -> length netUp = nFaces e -> length out = nsc ->
  exists out', tsSc d (nFaces e) (nPlanes e) (fst mem) (snd mem) dt (adTable g) (tyTable e g) netUp nsc dofs out = Ok out' /\ length out' = nsc /\
    forall i, (i < nsc)%nat -> nth i out' [] = vadd (nth i dofs []) (vsum (nQt d) (map (change d mats e nsf nsc dt (fun fa => nth fa netUp false) dofs (nth i dofs [])) (nth i g []))).
Proof.
  intros d nsf nsc mats e mem dt g netUp dofs out D W N RD G (LG & LL & LQ) LN LO. destruct (ready_ok d nsf nsc mats e mem D W N RD) as (OW & OT).
  rewrite (step_ok d nsf nsc mats e mem dt D W N OW OT g netUp dofs out G LN LQ LG LL LO). eexists. split; [reflexivity|]. rewrite map_length, combine_length. split; [lia|]. intros i Hi.
  match goal with |- nth i (map ?f _) [] = _ => rewrite (nth_indep _ [] (f ([], []))) by (rewrite map_length, combine_length; lia); rewrite (map_nth f) end.
  assert (C : nth i (combine dofs g) ([], []) = (nth i dofs [], nth i g [])).
  { clear - Hi LG LL. revert dofs g nsc Hi LG LL. induction i as [|i IH]; intros [|q dofs] [|s g] n Hi LG LL; cbn in *; try lia; auto. apply (IH dofs g (Nat.pred n)); lia. }
  rewrite C. reflexivity.
Qed.
Print Assumptions C97_step.
Example C97_step_ex : wfElem 2 quadMats quad /\ wfGrid quad (length quadDofs) quadGrid /\ wfDofs 2 9 quadGrid quadDofs.
Proof. split; [apply quad_wf|]. split; [apply quad_grid|apply quad_dofs]. Qed.

(** The net-updates of a face are the changes, which the step computes itself for the sub-faces of this face. *)
Theorem C97_net_updates : forall d nsf nsc mats e mem dt fa dofs0 dofs1 ups, dim d -> wfElem d mats e -> (0 < nsc)%nat -> ready d nsf nsc mats e mem -> (fa < nFaces e)%nat ->
  length dofs0 = nsf -> length dofs1 = nsf -> length ups = nsf -> (forall q, In q dofs0 -> length q = nQt d) -> (forall q, In q dofs1 -> length q = nQt d) ->
  exists ups', nuFaSf d (nPlanes e) (fst mem) (snd mem) dt nsf fa dofs0 dofs1 ups = Ok ups' /\ length ups' = nsf /\
    forall sf, (sf < nsf)%nat -> nth sf ups' [] = change d mats e nsf nsc dt (fun _ => false) dofs1 (nth sf dofs0 []) {| sAd := sf; sTy := Outer fa |}.
Proof.
  intros d nsf nsc mats e mem dt fa dofs0 dofs1 ups D W N RD Hf L0 L1 LU Q0 Q1. destruct (ready_ok d nsf nsc mats e mem D W N RD) as (OW & OT).
  rewrite (nu_ok d nsf nsc mats e mem dt D W N OW OT fa dofs0 dofs1 ups Hf L0 L1 LU Q0 Q1). eexists. split; [reflexivity|]. rewrite map_length, combine_length. split; [lia|]. intros sf Hs.
  match goal with |- nth sf (map ?f _) [] = _ => rewrite (nth_indep _ [] (f ([], []))) by (rewrite map_length, combine_length; lia); rewrite (map_nth f) end.
  rewrite combine_nth by lia. reflexivity.
Qed.
Print Assumptions C97_net_updates.
Example C97_net_updates_ex : (1 < nFaces quad)%nat /\ forall q, In q (repeat [1; 2; 3; 4; 5] 3) -> length q = nQt 2.
Proof. split; [cbn; lia|]. intros q H. apply repeat_spec in H. subst. reflexivity. Qed.

(** ** Conservation *)
(** What the sub-cells of an element hold in total changes only by what passes the element's own faces. *)
Theorem C97_conservation : forall d nsf nsc mats e mem dt g netUp dofs out out' c, dim d -> wfElem d mats e -> (0 < nsc)%nat -> ready d nsf nsc mats e mem -> wfGrid e (length dofs) g -> wfDofs d nsc g dofs -> length netUp = nFaces e -> length out = nsc -> paired d nsf e g ->
  tsSc d (nFaces e) (nPlanes e) (fst mem) (snd mem) dt (adTable g) (tyTable e g) netUp nsc dofs out = Ok out' ->
  total c out' = total c (firstn nsc dofs) +
    rsum (map (fun x => rsum (map (fun s => nth c (change d mats e nsf nsc dt (fun fa => nth fa netUp false) dofs (fst x) s) 0) (filter (fun s => negb (inner s)) (snd x)))) (combine dofs g)).
Proof.
  intros d nsf nsc mats e mem dt g netUp dofs out out' c D W N RD G (LG & LL & LQ) LN LO PA E. destruct (ready_ok d nsf nsc mats e mem D W N RD) as (OW & OT).
  rewrite (step_ok d nsf nsc mats e mem dt D W N OW OT g netUp dofs out G LN LQ LG LL LO) in E. injection E as <-. unfold total. rewrite map_map.
  rewrite (conserve d nsf nsc mats e mem dt D N OW OT g dofs (fun fa => nth fa netUp false) G LQ LG LL c PA). f_equal. rewrite (combine_fst (fun q => nth c q 0)) by lia. rewrite LG. reflexivity.
Qed.
Print Assumptions C97_conservation.
Example C97_conservation_ex : paired 2 3 quad quadGrid.
Proof. exact quad_paired. Qed.

(** Two elements exchange what they hold: the volume-weighted net-updates of both sides of a face are opposite. *)
Theorem C97_face_conservation : forall d nsf nsc mats e e' mem mem' dt fa fa' q q' ups ups' u u', dim d -> wfElem d mats e -> wfElem d mats e' -> (0 < nsc)%nat -> ready d nsf nsc mats e mem -> ready d nsf nsc mats e' mem' ->
  (fa < nFaces e)%nat -> (fa' < nFaces e')%nat -> nth fa (eFa e) noFace = nth fa' (eFa e') noFace -> nth fa (eAdj e) None = Some (eId e') -> nth fa' (eAdj e') None = Some (eId e) -> eId e <> eId e' ->
  length q = nsf -> length q' = nsf -> length ups = nsf -> length ups' = nsf -> (forall x, In x q -> length x = nQt d) -> (forall x, In x q' -> length x = nQt d) ->
  nuFaSf d (nPlanes e) (fst mem) (snd mem) dt nsf fa q q' ups = Ok u -> nuFaSf d (nPlanes e') (fst mem') (snd mem') dt nsf fa' q' q ups' = Ok u' ->
  forall sf c, (sf < nsf)%nat -> scVol nsc e * nth c (nth sf u []) 0 + scVol nsc e' * nth c (nth sf u' []) 0 = 0.
Proof.
  intros d nsf nsc mats e e' mem mem' dt fa fa' q q' ups ups' u u' D W W' N RD RD' Hf Hf' EF A A' NE L L' LU LU' Q Q' E E' sf c Hs.
  destruct (C97_net_updates d nsf nsc mats e mem dt fa q q' ups D W N RD Hf L L' LU Q Q') as (v & Ev & _ & Hv). rewrite E in Ev. injection Ev as <-.
  destruct (C97_net_updates d nsf nsc mats e' mem' dt fa' q' q ups' D W' N RD' Hf' L' L LU' Q' Q) as (v & Ev & _ & Hv'). rewrite E' in Ev. injection Ev as <-.
  rewrite Hv, Hv' by auto. unfold change. cbn [sTy sAd]. assert (L1 : length (nth sf q []) = nQt d) by (apply Q, nth_In; lia). assert (L2 : length (nth sf q' []) = nQt d) by (apply Q', nth_In; lia).
  rewrite (face_opposite d mats e e' fa fa' (nth sf q []) (nth sf q' []) D Hf Hf' EF A A' NE L1 L2). rewrite !nth_vscale.
  assert (AE : sfArea nsf e' (Outer fa') = sfArea nsf e (Outer fa)) by (unfold sfArea, plane; cbn [sfPlane]; rewrite !app_nth1 by auto; rewrite EF; reflexivity). rewrite AE.
  assert (V : scVol nsc e <> 0) by (apply Rgt_not_eq, Rmult_lt_0_compat; [apply W|apply Rinv_0_lt_compat, lt_0_INR; auto]). assert (V' : scVol nsc e' <> 0) by (apply Rgt_not_eq, Rmult_lt_0_compat; [apply W'|apply Rinv_0_lt_compat, lt_0_INR; auto]).
  field. auto.
Qed.
Print Assumptions C97_face_conservation.
(** the right neighbour of the element *)
Definition quadR : elem := {| eId := 2; eAdj := [None; None; None; Some 1%nat]; eFa := [fac 0 (-1); fac 1 0; fac 0 1; fac 1 0]; eAdd := []; eVol := 1 |}.
Lemma quadR_wf : wfElem 2 quadMats quadR.
Proof.
  unfold wfElem. cbn. repeat split; try lia; try lra.
  - intros a [E|[E|[E|[E|[]]]]]; try discriminate; injection E as <-; lia.
  - intros f H. decompose [or] H; subst; try contradiction; unfold validFrame, unit2, fac; cbn; lra.
Qed.
Example C97_face_conservation_ex : wfElem 2 quadMats quad /\ wfElem 2 quadMats quadR /\ nth 1 (eFa quad) noFace = nth 3 (eFa quadR) noFace /\ nth 1 (eAdj quad) None = Some (eId quadR) /\ nth 3 (eAdj quadR) None = Some (eId quad) /\ eId quad <> eId quadR.
Proof. split; [apply quad_wf|]. split; [apply quadR_wf|]. cbn. repeat split. lia. Qed.

(** ** Uniform states *)
(** A uniform state of equal materials does not change. *)
Theorem C97_uniform : forall d nsf nsc mats e mem dt g dofs out q, dim d -> wfElem d mats e -> (0 < nsc)%nat -> ready d nsf nsc mats e mem -> wfGrid e (length dofs) g -> wfDofs d nsc g dofs -> length out = nsc ->
  (forall x, In x dofs -> x = q) -> (forall fa, (fa < nFaces e)%nat -> matAd mats e (Outer fa) = matEl mats e) -> (forall sc, In sc g -> closed d nsf e sc) ->
  tsSc d (nFaces e) (nPlanes e) (fst mem) (snd mem) dt (adTable g) (tyTable e g) (repeat false (nFaces e)) nsc dofs out = Ok (repeat q nsc).
Proof.
  intros d nsf nsc mats e mem dt g dofs out q D W N RD G WD LO U MA CL. assert (WD' := WD). destruct WD' as (LG & LL & LQ).
  destruct (C97_step d nsf nsc mats e mem dt g (repeat false (nFaces e)) dofs out D W N RD G WD (repeat_length _ _) LO) as (out' & -> & L' & H). f_equal.
  assert (UN : forall i, (i < length dofs)%nat -> nth i dofs [] = q) by (intros; apply U, nth_In; auto).
  apply (nth_ext _ _ [] []); [rewrite repeat_length; auto|]. intros i Hi. rewrite H by lia. rewrite UN by lia. rewrite (nth_indep _ [] q), nth_repeat by (rewrite repeat_length; lia).
  assert (Lq : length q = nQt d) by (rewrite <- (UN i) by lia; apply LQ, nth_In; lia).
  assert (I : In (nth i g []) g) by (apply nth_In; lia). etransitivity; [|apply (uniform d nsf nsc mats e dt D g dofs G q (nth i g []) UN Lq MA I (CL _ I))]. f_equal. f_equal. apply map_ext. intros s. unfold change. destruct (sTy s); auto. rewrite nth_repeat. reflexivity.
Qed.
Print Assumptions C97_uniform.
Example C97_uniform_ex : wfDofs 2 9 quadGrid (repeat [1; 2; 3; 4; 5] 21) /\ (forall fa, (fa < nFaces quad)%nat -> matAd quadMats quad (Outer fa) = matEl quadMats quad) /\ forall sc, In sc quadGrid -> closed 2 3 quad sc.
Proof.
  split; [repeat split; [cbn; lia|intros q H; apply repeat_spec in H; subst; reflexivity]|]. split; [|apply quad_closed]. intros fa H. cbn in H. do 4 (destruct fa as [|fa]; [reflexivity|]). lia.
Qed.

(** ** Stability *)
(** Energy of a mesh of one material, with outflow boundaries, never grows, if the time step times the speed of P waves times the surface of a sub-cell is at most its volume. *)
Theorem C97_energy : forall d nsf nsc mats m dt M outs, dim d -> (0 < nsc)%nat -> (0 < nsf)%nat -> 0 <= dt -> solid m -> (forall x, In x mats -> x = m) ->
  (forall x, In x M -> wfElem d mats (pE x) /\ wfGrid (pE x) (length (pQ x)) (pG x) /\ wfDofs d nsc (pG x) (pQ x) /\ (forall f, In f (eFa (pE x) ++ eAdd (pE x)) -> 0 <= fAr f) /\
    forall sc, In sc (pG x) -> closed d nsf (pE x) sc /\ dt * speedP m * rsum (map (fun s => sfArea nsf (pE x) (sTy s)) sc) <= scVol nsc (pE x)) ->
  joined d nsf M ->
  Forall2 (fun x out' => exists mem out, ready d nsf nsc mats (pE x) mem /\ length out = nsc /\
    tsSc d (nFaces (pE x)) (nPlanes (pE x)) (fst mem) (snd mem) dt (adTable (pG x)) (tyTable (pE x) (pG x)) (repeat false (nFaces (pE x))) nsc (pQ x) out = Ok out') M outs ->
  rsum (map (fun x => scVol nsc (pE (fst x)) * totalEnergy d m (snd x)) (combine M outs)) <= rsum (map (fun x => scVol nsc (pE x) * totalEnergy d m (firstn nsc (pQ x))) M).
Proof.
  intros d nsf nsc mats m dt M outs D N S DT SM MM H J F. assert (X := mesh_energy d nsf nsc mats m dt M D N S DT SM MM H J).
  assert (E1 : rsum (map (fun x => scVol nsc (pE x) * totalEnergy d m (firstn nsc (pQ x))) M) = rsum (map (fun x => scVol nsc (pE x) * rsum (map (fun y => energy2 d m (fst y) (fst y)) (combine (pQ x) (pG x)))) M)).
  { apply rsum_ext. intros x Hx. destruct (H x Hx) as (_ & _ & (LG & LL & _) & _). unfold totalEnergy. rewrite (combine_fst (fun q => energy2 d m q q)) by lia. rewrite LG. reflexivity. }
  rewrite E1. eapply Rle_trans; [|exact X]. right. clear X E1 J. induction F as [|x o M outs (mem & out & RD & LO & E) F IH]; [reflexivity|].
  unfold rsum. cbn [combine map fold_right fst snd]. fold (rsum (map (fun x => scVol nsc (pE (fst x)) * totalEnergy d m (snd x)) (combine M outs))). rewrite IH by (intros; apply H; now right). unfold rsum at 1. f_equal. f_equal.
  destruct (H x (or_introl eq_refl)) as (W & G & (LG & LL & LQ) & _). destruct (ready_ok d nsf nsc mats (pE x) mem D W N RD) as (OW & OT).
  rewrite (step_ok d nsf nsc mats (pE x) mem dt D W N OW OT (pG x) _ (pQ x) out G (repeat_length _ _) LQ LG LL LO) in E. injection E as <-. unfold totalEnergy, rsum. rewrite map_map. f_equal. apply map_ext. intros y. cbv zeta.
  rewrite (map_ext (change d mats (pE x) nsf nsc dt (fun fa => nth fa (repeat false (nFaces (pE x))) false) (pQ x) (fst y)) (change d mats (pE x) nsf nsc dt (fun _ => false) (pQ x) (fst y))); [reflexivity|].
  intros s. unfold change. destruct (sTy s); auto. rewrite nth_repeat. reflexivity.
Qed.
Print Assumptions C97_energy.
(** two elements with one sub-cell each, side by side *)
Definition duoL : elem := {| eId := 0; eAdj := [None; Some 1%nat; None; None]; eFa := [fac 0 (-1); fac 1 0; fac 0 1; fac (-1) 0]; eAdd := []; eVol := 1 |}.
Definition duoR : elem := {| eId := 1; eAdj := [None; None; None; Some 0%nat]; eFa := [fac 0 (-1); fac 1 0; fac 0 1; fac 1 0]; eAdd := []; eVol := 1 |}.
Definition duoG : list (list subface) := [[sb 1 (Outer 0); sb 2 (Outer 1); sb 3 (Outer 2); sb 4 (Outer 3)]].
Definition duo : list part :=
  [{| pE := duoL; pG := duoG; pQ := [[1; 2; 3; 4; 5]; zeros 5; [5; 4; 3; 2; 1]; zeros 5; zeros 5] |};
   {| pE := duoR; pG := duoG; pQ := [[5; 4; 3; 2; 1]; zeros 5; zeros 5; zeros 5; [1; 2; 3; 4; 5]] |}].
Lemma m1_speed : speedP m1 <= 2.
Proof. unfold speedP, m1. cbn. apply Rsqr_incr_0_var; [|lra]. unfold Rsqr. rewrite sqrt_sqrt by lra. lra. Qed.
Example C97_energy_ex : solid m1 /\ (forall x, In x duo -> wfElem 2 [m1; m1] (pE x) /\ wfGrid (pE x) (length (pQ x)) (pG x) /\ wfDofs 2 1 (pG x) (pQ x) /\ (forall f, In f (eFa (pE x) ++ eAdd (pE x)) -> 0 <= fAr f) /\
    forall sc, In sc (pG x) -> closed 2 1 (pE x) sc /\ 1 / 8 * speedP m1 * rsum (map (fun s => sfArea 1 (pE x) (sTy s)) sc) <= scVol 1 (pE x)) /\ joined 2 1 duo.
Proof.
  split; [unfold solid, m1; cbn; lra|]. split.
  - intros x [<-|[<-|[]]]; cbn [pE pG pQ]; (split; [|split; [|split; [|split]]]).
    1, 6: unfold wfElem; cbn; repeat split; try lia; try lra; [intros a [E|[E|[E|[E|[]]]]]; try discriminate; injection E as <-; lia|intros f H; decompose [or] H; subst; try contradiction; unfold validFrame, unit2, fac; cbn; lra].
    1, 5: intros sc [<-|[]]; (split; [reflexivity|]); intros s K; cbn in K; decompose [or] K; subst; try contradiction; cbn; lia.
    1, 4: repeat split; [cbn; lia|]; intros q H; cbn in H; decompose [or] H; subst; try contradiction; reflexivity.
    1, 3: intros f H; cbn in H; decompose [or] H; subst; try contradiction; cbn; lra.
    all: intros sc [<-|[]]; split; [intros i Hi; (destruct i as [|[|i]]; [| |lia]); cbv -[Rplus Rmult Ropp Rinv IZR INR]; simpl; field|].
    all: assert (S := m1_speed); unfold scVol, sfArea, plane; simpl; lra.
  - exists (fun p => if ((fst p =? 0) && (snd p =? 1))%nat then (1, 3)%nat else if ((fst p =? 1) && (snd p =? 3))%nat then (0, 1)%nat else p).
    intros (c & k) x q s (sc & C & K). cbn [fst snd] in *. destruct c as [|[|c]]; [| |cbn in C; destruct c; discriminate]; cbn in C; injection C as <- <- <-; (destruct k as [|[|[|[|k]]]]; [| | | |cbn in K; destruct k; discriminate]); cbn in K; injection K as <-; cbn [Nat.eqb andb fst snd].
    all: split; [reflexivity|]. all: try (left; split; reflexivity).
    + right. exists {| pE := duoR; pG := duoG; pQ := [[5; 4; 3; 2; 1]; zeros 5; zeros 5; zeros 5; [1; 2; 3; 4; 5]] |}, [5; 4; 3; 2; 1], (sb 4 (Outer 3)). split; [eexists; split; reflexivity|]. split; [reflexivity|]. split; [reflexivity|]. intros j Hj. destruct j as [|[|j]]; [| |lia]; cbv -[Rplus Rmult Ropp Rinv IZR]; ring.
    + right. exists {| pE := duoL; pG := duoG; pQ := [[1; 2; 3; 4; 5]; zeros 5; [5; 4; 3; 2; 1]; zeros 5; zeros 5] |}, [1; 2; 3; 4; 5], (sb 2 (Outer 1)). split; [eexists; split; reflexivity|]. split; [reflexivity|]. split; [reflexivity|]. intros j Hj. destruct j as [|[|j]]; [| |lia]; cbv -[Rplus Rmult Ropp Rinv IZR]; ring.
Qed.

(** ** Boundary conditions *)
(** Ghost sub-cells of outflow boundaries are set to zeros, those of free surfaces to the state of the sub-cell at the face; nothing else changes. *)
Theorem C97_boundary : forall d nf nsf nsc tbl (src : nat -> nat -> nat) types dofs, dim d -> length types = nf -> length dofs = (nsc + nsf * nf)%nat ->
  (forall fa sf, (fa < nf)%nat -> (sf < nsf)%nat -> (src fa sf < nsc)%nat /\ exists row, nth_error tbl (nsc + nsf * fa + sf) = Some row /\ nth_error row 0 = Some (src fa sf)) ->
  exists dofs', applyBnd d nf nsf nsc tbl types dofs = Ok dofs' /\ length dofs' = length dofs /\ (forall i, (i < nsc)%nat -> nth i dofs' [] = nth i dofs []) /\
    forall fa sf, (fa < nf)%nat -> (sf < nsf)%nat -> let gh := (nsc + nsf * fa + sf)%nat in
      (nth fa types Inner = Outflow -> nth gh dofs' [] = zeros (nQt d)) /\ (nth fa types Inner = FreeSurface -> nth gh dofs' [] = nth (src fa sf) dofs []) /\ (nth fa types Inner = Inner -> nth gh dofs' [] = nth gh dofs []).
Proof.
  intros d nf nsf nsc tbl src types dofs D LT LD T. destruct (bnd_ok d nf nsf nsc tbl src types dofs D LT LD T) as (dofs' & E & L & H1 & H2). exists dofs'. split; [auto|]. split; [auto|]. split.
  - intros i Hi. destruct (nth_error dofs i) as [q|] eqn:Q; [|apply nth_error_None in Q; lia]. assert (Q' := H1 i Hi). rewrite Q in Q'. rewrite (nth_error_nth _ _ [] Q), (nth_error_nth _ _ [] Q'). reflexivity.
  - intros fa sf Hf Hs. cbv zeta. assert (X := nth_error_nth _ _ [] (H2 fa sf Hf Hs)). unfold ghost in X. rewrite X. repeat split; intros ->; reflexivity.
Qed.
Print Assumptions C97_boundary.
(** sub-cells at the faces of the element with 3x3 sub-cells *)
Definition quadSrc (fa sf : nat) : nat := nth sf (nth fa [[1; 2; 3]; [3; 4; 5]; [5; 6; 7]; [7; 8; 1]]%nat []) 0%nat.
Definition quadTbl : list (list nat) := adTable quadGrid ++ map (fun s => [s]) [1; 2; 3; 3; 4; 5; 5; 6; 7; 7; 8; 1]%nat.
Example C97_boundary_ex : length quadDofs = (9 + 3 * 4)%nat /\ forall fa sf, (fa < 4)%nat -> (sf < 3)%nat -> (quadSrc fa sf < 9)%nat /\ exists row, nth_error quadTbl (9 + 3 * fa + sf) = Some row /\ nth_error row 0 = Some (quadSrc fa sf).
Proof. split; [reflexivity|]. intros fa sf Hf Hs. do 4 (destruct fa as [|fa]; [do 3 (destruct sf as [|sf]; [split; [cbn; lia|eexists; split; reflexivity]|]); lia|]). lia. Qed.

(** A free surface carries no traction: this fails. The ghost sub-cell copies stresses as well, so that the flux through the surface is the one of the sub-cell's own stress and accelerates it. *)
Theorem C97_free_surface_refuted : ~ (forall d nf nsf nsc tbl types dofs dofs' m n fa sf sc, dim d -> solid m -> dot d n n = 1 -> length types = nf -> (fa < nf)%nat -> (sf < nsf)%nat -> (sc < nsc)%nat -> (forall q, In q dofs -> length q = nQt d) ->
  nth fa types Inner = FreeSurface -> (exists row, nth_error tbl (nsc + nsf * fa + sf) = Some row /\ nth_error row 0 = Some sc) ->
  applyBnd d nf nsf nsc tbl types dofs = Ok dofs' -> forall i, (i < d)%nat -> vel d (llf d m m n (nth sc dofs []) (nth (nsc + nsf * fa + sf) dofs' [])) i = 0).
Proof.
  intros H. specialize (H 2%nat 1%nat 1%nat 1%nat [[]; [0%nat]] [FreeSurface] [[1; 0; 0; 0; 0]; zeros 5] [[1; 0; 0; 0; 0]; [1; 0; 0; 0; 0]] m1 (fun i => if (i =? 0)%nat then 1 else 0) 0%nat 0%nat 0%nat).
  assert (X : vel 2 (llf 2 m1 m1 (fun i => if (i =? 0)%nat then 1 else 0) [1; 0; 0; 0; 0] [1; 0; 0; 0; 0]) 0 = 0).
  { apply H; auto; try lia.
    - unfold solid, m1. cbn. lra.
    - cbv [dot sum seq fold_left Nat.eqb]. ring.
    - intros q [<-|[<-|[]]]; reflexivity.
    - exists [0%nat]. auto. }
  rewrite llf_same in X by (auto; left; reflexivity). cbv -[Rplus Rmult Ropp Rinv Rdiv IZR] in X. lra.
Qed.
Print Assumptions C97_free_surface_refuted.
