(** C96: material parameters and time steps of seismic simulations.  Specification: SeisSetSpec. *)
From Coq Require Import List Arith Bool Reals Lra Lia QArith Qreals Lqa Psatz.
From Verif Require ElSpec LeastSq.
From Verif Require Import Util Groups TimeGroup FakeMats Visc ViscSpec SeisSetSpec SeisSetup Props_Groups.
Import ListNotations.
Open Scope R_scope.

Lemma posR_true a : 0 < a -> posR a = true. Proof. intros. unfold posR. destruct (Rlt_dec 0 a); [reflexivity|contradiction]. Qed.
Lemma posR_false a : ~ 0 < a -> posR a = false. Proof. intros. unfold posR. destruct (Rlt_dec 0 a); [contradiction|reflexivity]. Qed.
Lemma quo_ok a b : b <> 0 -> quo a b = Ok (a / b). Proof. intros. unfold quo. destruct (Req_EM_T b 0); [contradiction|reflexivity]. Qed.

(** *** Velocity model of the mesh *)
(** The wave speeds of an element's parameters are those of the mesh, the quality factors are one fifth and one tenth of the S speed. *)
Theorem C96_mesh_speeds vp vs rho p : 0 <= vp -> 0 <= vs -> meshPar vp vs rho = Ok p -> hasSpeeds (pRho p) (pLam p) (pMu p) vp vs /\ velP p = Ok vp /\ velS p = Ok vs /\ pRho p = rho /\ pQp p = 2 / 10 * vs /\ pQs p = 1 / 10 * vs.
Proof.
  intros H1 H2. unfold meshPar, posR. destruct (Rlt_dec 0 rho) as [R|]; [|discriminate]. cbn [check bind]. destruct (Rlt_dec 0 (vs * vs * rho)) as [M|]; [|discriminate]. cbn [check bind].
  destruct (Rlt_dec 0 (vp * vp * rho - 2 * (vs * vs * rho))) as [L|]; [|discriminate]. cbn [check bind]. intros E. injection E as <-. cbn [pRho pLam pMu].
  assert (V : 0 < vp) by (destruct H1 as [|<-]; [assumption|]; rewrite !Rmult_0_l in L; lra). assert (S : 0 < vs) by (destruct H2 as [|<-]; [assumption|]; rewrite !Rmult_0_l in M; lra).
  split; [unfold hasSpeeds; repeat split; try lra; ring|]. unfold velP, velS. cbn [pRho pLam pMu]. rewrite !quo_ok by lra. cbn [bind].
  replace ((vp * vp * rho - 2 * (vs * vs * rho) + 2 * (vs * vs * rho)) / rho) with (vp * vp) by (field; lra). replace (vs * vs * rho / rho) with (vs * vs) by (field; lra).
  rewrite !posR_true by nra. rewrite !sqrt_square by lra. repeat split.
Qed.
(** Exactly the media with positive density and Lame parameters are accepted. *)
Theorem C96_mesh_accepted vp vs rho : (exists p, meshPar vp vs rho = Ok p) <-> 0 < rho /\ vs <> 0 /\ 2 * (vs * vs) < vp * vp.
Proof.
  unfold meshPar, posR. destruct (Rlt_dec 0 rho) as [R|R]; cbn [check bind]; [|split; [intros (p & H); discriminate|lra]].
  destruct (Rlt_dec 0 (vs * vs * rho)) as [M|M]; cbn [check bind].
  - destruct (Rlt_dec 0 (vp * vp * rho - 2 * (vs * vs * rho))) as [L|L]; cbn [check bind].
    + split; [intros _|eauto]. split; [exact R|]. split; [intros ->; lra|]. apply (Rmult_lt_reg_r rho); nra.
    + split; [intros (p & H); discriminate|]. intros (_ & _ & H). exfalso. apply L. nra.
  - split; [intros (p & H); discriminate|]. intros (_ & H & _). exfalso. apply M. assert (0 < vs * vs) by nra. nra.
Qed.
Theorem C96_from_mesh nEls vps vss rhos ps : length ps = nEls -> length vps = nEls -> length vss = nEls -> length rhos = nEls ->
  (forall el, (el < nEls)%nat -> exists p, meshPar (nth el vps 0) (nth el vss 0) (nth el rhos 0) = Ok p) ->
  exists ps', fromMesh nEls vps vss rhos ps = Ok (true, ps') /\ length ps' = nEls /\ forall el, (el < nEls)%nat -> exists p, nth_error ps' el = Some p /\ meshPar (nth el vps 0) (nth el vss 0) (nth el rhos 0) = Ok p.
Proof.
  intros L0 L1 L2 L3 H. unfold fromMesh. rewrite L1, L2, L3, Nat.eqb_refl. cbn [andb].
  match goal with |- context [for_ 0 nEls ?f ps] => destruct (for_ok (fun k l => length l = nEls /\ forall el, (el < k)%nat -> exists p, nth_error l el = Some p /\ meshPar (nth el vps 0) (nth el vss 0) (nth el rhos 0) = Ok p) 0 nEls f ps) as (l & E & Ll & Hl) end.
  - lia.
  - split; [exact L0|lia].
  - intros k l Hk (Ll & Hl). rewrite (rd_ok vps k 0), (rd_ok vss k 0), (rd_ok rhos k 0) by lia. cbn [bind]. destruct (H k ltac:(lia)) as (p & Ep). rewrite Ep. cbn [bind]. rewrite wr_ok by lia.
    eexists. split; [reflexivity|]. split; [now rewrite length_upd|]. intros el He. destruct (Nat.eq_dec el k) as [->|N]; [exists p; split; [now rewrite nth_error_upd_eq by lia|exact Ep]|].
    rewrite nth_error_upd_ne by lia. apply Hl. lia.
  - rewrite E. cbn [bind]. eexists. split; [reflexivity|]. split; [exact Ll|]. intros el He. apply Hl. lia.
Qed.

(** *** Velocity model of the configuration *)
Lemma aveDim_ok crds ves dm : (forall v, In v ves -> exists p, nth_error crds v = Some p /\ (dm < length p)%nat) ->
  aveDim crds ves dm = Ok (sumR (map (fun p => nth dm p 0) (map (fun v => nth v crds []) ves)) / INR (length ves)).
Proof.
  intros H. unfold aveDim. set (g := fun v => nth dm (nth v crds []) 0).
  match goal with |- context [for_ 0 ?n ?f ?s] => destruct (for_ok (fun k acc => acc = sumR (map g (firstn k ves))) 0 n f s) as (t & E & ->) end.
  - lia.
  - reflexivity.
  - intros k s Hk ->. rewrite (rd_ok ves k 0%nat) by lia. cbn [bind]. destruct (H (nth k ves 0%nat) ltac:(apply nth_In; lia)) as (p & Ep & Lp). rewrite (rd_some _ _ _ Ep). cbn [bind]. rewrite (rd_ok p dm 0) by exact Lp. cbn [bind].
    eexists. split; [reflexivity|]. replace (nth dm p 0) with (g (nth k ves 0%nat)) by (unfold g; now rewrite (nth_error_nth _ _ _ Ep)).
    assert (X : firstn (S k) ves = firstn k ves ++ [nth k ves 0%nat]). { clear -Hk. revert k Hk. induction ves as [|a ves IH]; intros [|k] Hk; cbn [length] in *; try lia; [reflexivity|]. cbn [firstn app nth]. f_equal. apply IH. lia. }
    rewrite X, map_app. cbn [map]. clear. generalize (map g (firstn k ves)). induction l as [|a l IH]; cbn [sumR app]; [lra|]. rewrite <- IH. lra.
  - rewrite E. cbn [bind]. rewrite firstn_all, map_map. reflexivity.
Qed.
Lemma centre_ok nDim crds ves : (forall v, In v ves -> exists p, nth_error crds v = Some p /\ (nDim <= length p)%nat) ->
  for_ 0 nDim (fun dm a => x <- aveDim crds ves dm;; Ok (a ++ [x])) [] = Ok (centre nDim (map (fun v => nth v crds []) ves)).
Proof.
  intros H. match goal with |- for_ 0 ?n ?f ?s = _ => destruct (for_ok (fun k a => a = centre k (map (fun v => nth v crds []) ves)) 0 n f s) as (t & E & ->) end.
  - lia.
  - reflexivity.
  - intros k a Hk ->. rewrite aveDim_ok. 2:{ intros v Hv. destruct (H v Hv) as (p & E & L). exists p. split; [exact E|lia]. } cbn [bind]. eexists. split; [reflexivity|].
    unfold centre. rewrite seq_snoc, map_app, map_length. reflexivity.
  - exact E.
Qed.
Definition asPar (nm : nat) (big : R) (v : list R) : par :=
  {| pRho := nth 0 v 0; pLam := nth 1 v 0; pMu := nth 2 v 0; pQp := if (0 <? nm)%nat then nth 3 v 0 else big; pQs := if (0 <? nm)%nat then nth 4 v 0 else big |}.
Lemma findDom_first vm nm big doms x p i v : (forall f w, In (f, w) doms -> length w = 5%nat) -> firstInside doms x i v -> findDom vm nm big doms x p = Ok (asPar nm big v).
Proof.
  revert i. induction doms as [|[f w] ds IH]; intros i Hl ((g & E & G) & B); [destruct i; discriminate|]. cbn [findDom]. destruct i as [|i].
  - cbn in E. injection E as -> ->. rewrite G. pose proof (Hl g v (or_introl eq_refl)) as Lv. rewrite (rd_ok v 0 0), (rd_ok v 1 0), (rd_ok v 2 0), (rd_ok v 3 0), (rd_ok v 4 0) by lia. cbn [bind]. unfold asPar. destruct (0 <? nm)%nat; reflexivity.
  - rewrite (B 0%nat f w ltac:(lia) eq_refl). cbn [nth_error] in E. assert (N : (length ds =? 0)%nat = false) by (apply Nat.eqb_neq; apply (nth_error_Some ds i) in E || (pose proof (proj1 (nth_error_Some ds i) ltac:(congruence)); lia); lia).
    rewrite N, orb_true_r. cbn [check bind]. apply (IH i); [intros h u Hu; apply (Hl h u); now right|]. split; [exists g; auto|]. intros j h u Hj Ej. apply (B (S j) h u); [lia|exact Ej].
Qed.
Lemma findDom_none nm big doms x p : outside doms x -> findDom true nm big doms x p = Ok p.
Proof. induction doms as [|[f w] ds IH]; intros O; [reflexivity|]. cbn [findDom]. rewrite (O f w (or_introl eq_refl)). cbn [orb check bind]. apply IH. intros g u H. apply (O g u). now right. Qed.
Lemma findDom_missing nm big doms x p : doms <> [] -> outside doms x -> findDom false nm big doms x p = Er Echeck.
Proof.
  induction doms as [|[f w] ds IH]; intros N O; [contradiction|]. cbn [findDom]. rewrite (O f w (or_introl eq_refl)). cbn [orb]. destruct ds as [|d ds]; [reflexivity|]. cbn [length Nat.eqb negb check bind].
  apply IH; [discriminate|]. intros g u H. apply (O g u). now right.
Qed.
Section Pars.
Variables (nm : nat) (big : R) (nDim : nat) (doms : list dom) (crds : list (list R)) (elVe : list (list nat)) (ps : list par).
Hypotheses (Hd : forall f w, In (f, w) doms -> length w = 5%nat) (Hv : forall ves v, In ves elVe -> In v ves -> exists p, nth_error crds v = Some p /\ (nDim <= length p)%nat) (Hp : length ps = length elVe).
Definition place (el : nat) : list R := centre nDim (map (fun v => nth v crds []) (nth el elVe [])).
Lemma set_step vm el l : (el < length elVe)%nat -> length l = length elVe ->
  (ves <- rd elVe el;; ave <- for_ 0 nDim (fun dm a => x <- aveDim crds ves dm;; Ok (a ++ [x])) [];; _ <- check (vm || (0 <? length doms)%nat);; p <- rd l el;; p <- findDom vm nm big doms ave p;; wr l el p) =
  (_ <- check (vm || (0 <? length doms)%nat);; p <- rd l el;; p <- findDom vm nm big doms (place el) p;; wr l el p).
Proof. intros H L. rewrite (rd_ok elVe el []) by exact H. cbn [bind]. rewrite centre_ok; [reflexivity|]. intros v Hin. apply (Hv (nth el elVe [])); [apply nth_In; exact H|exact Hin]. Qed.
(** Every element gets the values of the first domain its centre is inside of; without such a domain, those of the mesh are kept. *)
Theorem C96_domains vm : (forall el, (el < length elVe)%nat -> (exists i v, firstInside doms (place el) i v) \/ vm = true /\ outside doms (place el)) ->
  exists ps', setPars vm nm big nDim doms crds elVe ps = Ok ps' /\ length ps' = length elVe /\
  forall el, (el < length elVe)%nat -> (forall i v, firstInside doms (place el) i v -> nth_error ps' el = Some (asPar nm big v)) /\ (outside doms (place el) -> nth_error ps' el = nth_error ps el).
Proof.
  intros H. unfold setPars.
  match goal with |- context [for_ 0 ?n ?f ps] => destruct (for_ok (fun k l => length l = length elVe /\ (forall el, (el < k)%nat -> (forall i v, firstInside doms (place el) i v -> nth_error l el = Some (asPar nm big v)) /\ (outside doms (place el) -> nth_error l el = nth_error ps el)) /\ forall el, (k <= el)%nat -> nth_error l el = nth_error ps el) 0 n f ps) as (l & E & Ll & Hl & _) end.
  - lia.
  - split; [exact Hp|]. split; [lia|reflexivity].
  - intros k l Hk (Ll & H1 & H2). rewrite set_step by lia. assert (C : check (vm || (0 <? length doms)%nat) = Ok tt).
    { destruct (H k ltac:(lia)) as [(i & v & (f & Ef & _) & _)|(-> & _)]; [|reflexivity]. destruct doms; [destruct i; discriminate|]. cbn [length Nat.ltb Nat.leb]. now rewrite orb_true_r. }
    rewrite C. cbn [bind]. destruct (nth_error l k) as [p|] eqn:Ep; [|apply nth_error_None in Ep; lia]. rewrite (rd_some _ _ _ Ep). cbn [bind].
    destruct (H k ltac:(lia)) as [(i & v & F)|(V & O)].
    + rewrite (findDom_first vm nm big doms _ p i v Hd F). cbn [bind]. rewrite wr_ok by lia. eexists. split; [reflexivity|]. split; [now rewrite length_upd|]. split.
      * intros el He. destruct (Nat.eq_dec el k) as [->|N]; [|rewrite nth_error_upd_ne by lia; apply H1; lia]. rewrite nth_error_upd_eq by lia. split.
        -- intros j w G. f_equal. pose proof (findDom_first true nm big doms _ p i v Hd F) as A. pose proof (findDom_first true nm big doms _ p j w Hd G) as B. congruence.
        -- intros O. destruct F as ((f & Ef & Gf) & _). rewrite (O f v) in Gf by (eapply nth_error_In; exact Ef). discriminate.
      * intros el He. rewrite nth_error_upd_ne by lia. apply H2. lia.
    + subst vm. rewrite findDom_none by exact O. cbn [bind]. rewrite wr_ok by lia. eexists. split; [reflexivity|]. split; [now rewrite length_upd|]. split.
      * intros el He. destruct (Nat.eq_dec el k) as [->|N]; [|rewrite nth_error_upd_ne by lia; apply H1; lia]. rewrite nth_error_upd_eq by lia. split.
        -- intros j w ((f & Ef & Gf) & _). rewrite (O f w) in Gf by (eapply nth_error_In; exact Ef). discriminate.
        -- intros _. rewrite <- Ep. apply H2. lia.
      * intros el He. rewrite nth_error_upd_ne by lia. apply H2. lia.
  - rewrite E. exists l. split; [reflexivity|]. split; [exact Ll|]. intros el He. apply Hl. lia.
Qed.
(** Without velocity model of the mesh, a centre outside of all domains is an error. *)
Theorem C96_domains_missing el : (el < length elVe)%nat -> outside doms (place el) -> (forall e, (e < el)%nat -> exists i v, firstInside doms (place e) i v) -> setPars false nm big nDim doms crds elVe ps = Er Echeck.
Proof.
  intros He O B. unfold setPars, for_. rewrite Nat.sub_0_r. replace (length elVe) with (el + (length elVe - el))%nat by lia.
  assert (A : forall n k l, (k + n = el)%nat -> length l = length elVe -> forall m, (0 < m)%nat -> (el + m = length elVe)%nat ->
    for_n (n + m) k (fun el ps => ves <- rd elVe el;; ave <- for_ 0 nDim (fun dm a => x <- aveDim crds ves dm;; Ok (a ++ [x])) [];; _ <- check (false || (0 <? length doms)%nat);; p <- rd ps el;; p <- findDom false nm big doms ave p;; wr ps el p) l = Er Echeck).
  { induction n as [|n IH]; intros k l Hk Ll m Hm Em.
    - destruct m as [|m]; [lia|]. cbn [Nat.add for_n]. rewrite set_step by lia. assert (k = el) as -> by lia. destruct doms as [|d ds] eqn:Ed; [reflexivity|]. rewrite <- Ed in *. replace (false || (0 <? length doms)%nat) with true by (rewrite Ed; reflexivity). cbn [check bind].
      destruct (nth_error l el) as [p|] eqn:Ep; [|apply nth_error_None in Ep; lia]. rewrite (rd_some _ _ _ Ep). cbn [bind]. rewrite findDom_missing; [reflexivity|rewrite Ed; discriminate|exact O].
    - cbn [Nat.add for_n]. rewrite set_step by lia. match goal with |- context [for_n _ (S k) ?f] => set (rest := f) end. destruct (B k ltac:(lia)) as (i & v & F). assert (C : check (false || (0 <? length doms)%nat) = Ok tt).
      { destruct F as ((f & Ef & _) & _). destruct doms; [destruct i; discriminate|]. reflexivity. }
      rewrite C. cbn [bind]. destruct (nth_error l k) as [p|] eqn:Ep; [|apply nth_error_None in Ep; lia]. rewrite (rd_some _ _ _ Ep). cbn [bind]. rewrite (findDom_first false nm big doms _ p i v Hd F). cbn [bind]. rewrite wr_ok by lia. cbn [bind]. subst rest.
      apply IH; try lia. now rewrite length_upd. }
  apply (A el 0%nat ps); try lia. 
Qed.
End Pars.

(** *** Time steps of the solver *)
Lemma cflStep_ok ord dia p v : (1 <= ord)%nat -> 0 < dia -> 0 < v -> velP p = Ok v -> cflStep ord dia p = Ok (limit ord dia v) /\ 0 < limit ord dia v.
Proof.
  intros Ho Hd Hv E. assert (O : 1 <= INR ord) by (apply (le_INR 1); exact Ho). assert (L : dia * (1 / 2) / v / (2 * INR ord - 1) = limit ord dia v) by (unfold limit; field; lra).
  assert (P : 0 < limit ord dia v) by (unfold limit; repeat (apply Rdiv_lt_0_compat; try lra)).
  split; [|exact P]. unfold cflStep. rewrite E. cbn [bind]. rewrite L, posR_true by exact P. reflexivity.
Qed.
Section Steps.
Variables (big : R) (ord : nat).
Hypothesis Ho : (1 <= ord)%nat.
(** a stable element: positive diameter and wave speed *)
Definition sound (e : R * par) (l : R) : Prop := exists v, 0 < fst e /\ 0 < v /\ velP (snd e) = Ok v /\ l = limit ord (fst e) v.
Lemma sound_step e l : sound e l -> cflStep ord (fst e) (snd e) = Ok l /\ 0 < l.
Proof. intros (v & H1 & H2 & H3 & ->). now apply cflStep_ok. Qed.
(** The statistics are the minimum, average and maximum of the elements' stable time steps. *)
Theorem C96_statistics els ls : Forall2 sound els ls -> (forall l, In l ls -> l <= big) -> els <> [] ->
  exists mi av ma, cflStats big ord els = Ok (mi, av, ma) /\ In mi ls /\ In ma ls /\ (forall l, In l ls -> mi <= l <= ma) /\ av = sumR ls / INR (length els).
Proof.
  intros F B N. unfold cflStats. generalize (length els) at 1 2. intros n. assert (G : forall els ls, Forall2 sound els ls -> forall mi av ma, (forall l, In l ls -> l <= big) ->
    exists mi' av' ma', fold_left (fun st e => '(mi, av, ma) <- st;; dt <- cflStep ord (fst e) (snd e);; Ok (Rmin mi dt, av + dt / INR n, Rmax ma dt)) els (Ok (mi, av, ma)) = Ok (mi', av', ma') /\
    (mi' = mi \/ In mi' ls) /\ (ma' = ma \/ In ma' ls) /\ mi' <= mi /\ ma <= ma' /\ (forall l, In l ls -> mi' <= l <= ma') /\ av' = av + sumR ls / INR n).
  { clear F B N els ls. induction 1 as [|e l els ls S F IH]; intros mi av ma B.
    - exists mi, av, ma. cbn. repeat split; auto; try lra; try (now intros ? []); try (unfold Rdiv; ring).
    - cbn [fold_left bind]. destruct (sound_step e l S) as (-> & P). cbn [bind]. destruct (IH (Rmin mi l) (av + l / INR n) (Rmax ma l)) as (mi' & av' & ma' & E & H1 & H2 & H3 & H4 & H5 & H6); [intros x Hx; apply B; now right|].
      exists mi', av', ma'. split; [exact E|]. pose proof (Rmin_l mi l). pose proof (Rmin_r mi l). pose proof (Rmax_l ma l). pose proof (Rmax_r ma l). split; [|split; [|split; [|split; [|split]]]].
      + destruct H1 as [->|H1]; [|right; now right]. unfold Rmin. destruct (Rle_dec mi l); [now left|right; now left].
      + destruct H2 as [->|H2]; [|right; now right]. unfold Rmax. destruct (Rle_dec ma l); [right; now left|now left].
      + lra.
      + lra.
      + intros x [<-|Hx]; [lra|]. apply H5, Hx.
      + rewrite H6. cbn [sumR]. unfold Rdiv. ring. }
  destruct (G els ls F big 0 0 B) as (mi & av & ma & E & H1 & H2 & H3 & H4 & H5 & H6). exists mi, av, ma. split; [exact E|].
  destruct F as [|e l els' ls' S F']; [contradiction|]. destruct (sound_step e l S) as (_ & P). pose proof (H5 l (or_introl eq_refl)) as H7. pose proof (B l (or_introl eq_refl)).
  split; [|split; [|split; [exact H5|rewrite H6; ring]]].
  - destruct H1 as [->|H1]; [|exact H1]. assert (l = big) by lra. subst l. now left.
  - destruct H2 as [->|H2]; [lra|exact H2].
Qed.
(** The minimum over all ranks is the least stable time step of all elements, for every distribution of the elements to ranks (also empty ones). *)
Theorem C96_global_minimum ranks lss : Forall2 (Forall2 sound) ranks lss -> (forall l, In l (concat lss) -> l <= big) -> concat ranks <> [] ->
  exists gm, globalMin big ord ranks = Ok gm /\ In gm (concat lss) /\ 0 < gm /\ forall l, In l (concat lss) -> gm <= l.
Proof.
  intros F B N. unfold globalMin. assert (G : forall ranks lss, Forall2 (Forall2 sound) ranks lss -> forall m, (forall l, In l (concat lss) -> l <= big) -> m <= big ->
    exists m', fold_left (fun m r => m <- m;; '(mi, _, _) <- cflStats big ord r;; Ok (Rmin m mi)) ranks (Ok m) = Ok m' /\ (m' = m \/ In m' (concat lss)) /\ m' <= m /\ forall l, In l (concat lss) -> m' <= l).
  { clear F B N ranks lss. induction 1 as [|r ls ranks lss S F IH]; intros m B Hm.
    - exists m. cbn. repeat split; auto; try lra. now intros ? [].
    - cbn [fold_left bind concat]. destruct r as [|e r].
      + inversion S; subst ls. cbn [cflStats fold_left bind app]. replace (Rmin m big) with m by (symmetry; apply Rmin_left; exact Hm). unfold cflStats. cbn [fold_left bind]. replace (Rmin m big) with m by (symmetry; apply Rmin_left; exact Hm). apply IH; [exact B|exact Hm].
      + destruct (C96_statistics (e :: r) ls S) as (mi & av & ma & E & H1 & H2 & H3 & H4); [intros l Hl; apply B; cbn; apply in_or_app; now left|discriminate|]. rewrite E. cbn [bind].
        pose proof (Rmin_l m mi). pose proof (Rmin_r m mi). destruct (IH (Rmin m mi)) as (m' & E' & K1 & K2 & K3); [intros l Hl; apply B; cbn; apply in_or_app; now right|lra|]. exists m'. split; [exact E'|]. split; [|split; [lra|]].
        * destruct K1 as [->|K1]; [|right; apply in_or_app; now right]. unfold Rmin. destruct (Rle_dec m mi); [now left|right; apply in_or_app; now left].
        * intros l Hl. apply in_app_or in Hl as [Hl|Hl]; [destruct (H3 l Hl); lra|apply K3, Hl]. }
  destruct (G ranks lss F big B ltac:(lra)) as (m & E & H1 & H2 & H3). exists m. split; [exact E|]. assert (I : In m (concat lss)).
  { destruct H1 as [->|H1]; [|exact H1]. assert (X : exists l, In l (concat lss)).
    { clear -F N. induction F as [|r ls ranks lss S F IH]; [contradiction|]. destruct r as [|e r]; [inversion S; cbn in N |- *; apply IH, N|]. inversion S; subst. eexists. now left. }
    destruct X as (l & Hl). assert (l = big) by (pose proof (H3 l Hl); pose proof (B l Hl); lra). now subst l. }
  split; [exact I|]. split; [|exact H3]. clear -F I Ho. induction F as [|r ls ranks lss S F IH]; [destruct I|]. cbn in I. apply in_app_or in I as [I|I]; [|now apply IH]. clear -S I Ho. induction S as [|e l r ls S1 S IH]; [destruct I|]. destruct I as [<-|I]; [apply (sound_step e l S1)|now apply IH].
Qed.
(** With one time group, no element's time step exceeds its own stable one, whatever the preprocessor assumed about the speeds. *)
Theorem C96_one_group ranks lss file : Forall2 (Forall2 sound) ranks lss -> (forall l, In l (concat lss) -> l <= big) -> concat ranks <> [] ->
  exists gm dt, globalMin big ord ranks = Ok gm /\ groupStep 1 file gm 0 = Ok dt /\ 0 < dt /\ forall l, In l (concat lss) -> dt <= l.
Proof.
  intros F B N. destruct (C96_global_minimum ranks lss F B N) as (gm & E & I & P & H). exists gm, gm. split; [exact E|]. split; [|split; [exact P|exact H]].
  unfold groupStep, relDts. cbn [Nat.ltb Nat.leb bind rd nth_error]. f_equal. change (dbl 0) with 1%nat. cbn [INR]. unfold Q2R. cbn. field.
Qed.
End Steps.

(** *** Local time stepping: preprocessor and solver *)
Lemma rates_two n : rates_ok (repeat 2%Q n).
Proof. intros r H. apply repeat_spec in H. subst r. split; reflexivity || discriminate. Qed.
Lemma start_two n f k : (k <= n)%nat -> Q2R (start (repeat 2%Q n) f k) = Q2R f * INR (dbl k).
Proof.
  induction k as [|k IH]; intros H; [unfold start; cbn [firstn fold_left]; change (dbl 0) with 1%nat; cbn [INR]; ring|].
  rewrite (start_S _ _ k 2%Q) by (rewrite nth_error_repeat; auto; lia). rewrite Q2R_mult, IH by lia. change (dbl (S k)) with (dbl k * 2)%nat. rewrite mult_INR. change (INR 2) with (1 + 1). unfold Q2R at 2. cbn [Qnum Qden]. field.
Qed.
Lemma relDts_ok n f file : (0 < f)%Q -> intervals_of (repeat 2%Q n) f file -> exists rel, relDts (n + 1) file = Ok rel /\ rd rel 0 = Ok (Some (if (n =? 0)%nat then 1%Q else f)).
Proof.
  intros F (L & I & _). rewrite repeat_length in L, I. unfold relDts. destruct n as [|n]; [cbn; eauto|]. replace (1 <? S n + 1)%nat with true by (symmetry; apply Nat.ltb_lt; lia).
  match goal with |- context [for_ 0 ?m ?b ?s] => destruct (for_ok (fun _ _ => True) 0 m b s) as ([] & E & _) end.
  - lia.
  - exact Logic.I.
  - intros k [] Hk _. rewrite (rd_some _ _ _ (I k ltac:(lia))). cbn [bind]. rewrite (rd_some _ _ _ (I (k + 1)%nat ltac:(lia))). cbn [bind].
    replace (k + 1)%nat with (S k) by lia. rewrite (start_S _ _ k 2%Q) by (apply nth_error_repeat; lia). destruct (start_mono (repeat 2%Q (S n)) f (rates_two _) F k ltac:(rewrite repeat_length; lia)) as (P & _).
    set (a := start (repeat 2%Q (S n)) f k) in *. assert (X : (a * 2 / a == 2)%Q) by (field; intros Z; rewrite Z in P; discriminate P).
    assert (Y : (negb (Qle_bool (1 # 100000) (a * 2 / a - 2)) && negb (Qle_bool (a * 2 / a - 2) (- (1 # 100000))))%bool = true).
    { apply andb_true_iff. split; apply negb_true_iff, not_true_is_false; rewrite Qle_bool_iff, X; vm_compute; auto. }
    rewrite Y. cbn. eauto.
  - rewrite E. cbn [bind]. exists file. split; [reflexivity|]. rewrite (rd_some _ _ _ (I 0%nat ltac:(lia))). reflexivity.
Qed.

(** Meshes whose groups do not double the time step (up to the tolerance) are rejected. *)
Theorem C96_rate_two nTgs file gm tg dt k : groupStep nTgs file gm tg = Ok dt -> (k + 1 < nTgs)%nat -> exists a b, nth_error file k = Some (Some a) /\ nth_error file (k + 1) = Some (Some b) /\
  (2 - (1 # 100000) < b / a /\ b / a < 2 + (1 # 100000))%Q.
Proof.
  intros E Hk. unfold groupStep, relDts in E. replace (1 <? nTgs)%nat with true in E by (symmetry; apply Nat.ltb_lt; lia).
  match type of E with context [for_ 0 ?m ?b ?s] => set (body := b) in E; destruct (for_ 0 m body s) as [[]|] eqn:F end; [|discriminate].
  assert (B : exists u, body k tt = Ok u).
  { clear E. unfold for_ in F. rewrite Nat.sub_0_r in F. remember (nTgs - 1)%nat as n. assert (Hn : (k < n)%nat) by lia. clear Heqn Hk. revert F Hn. 
    assert (G : forall m i0 k, (i0 <= k < i0 + m)%nat -> for_n m i0 body tt = Ok tt -> exists u, body k tt = Ok u).
    { induction m as [|m IH]; intros i0 k0 Hk0 F; [lia|]. cbn in F. destruct (body i0 tt) as [[]|] eqn:B; [|discriminate]. cbn in F. destruct (Nat.eq_dec k0 i0) as [->|N]; [eauto|]. apply (IH (S i0)); [lia|exact F]. }
    intros F Hn. apply (G n 0%nat); [lia|exact F]. }
  destruct B as (u & B). unfold body in B. clear F E. unfold rd in B. destruct (nth_error file k) as [[a|]|] eqn:A1; cbn in B; [| |discriminate]; (destruct (nth_error file (k + 1)) as [[b|]|] eqn:A2; cbn in B; try discriminate).
  exists a, b. split; [reflexivity|split; [reflexivity|]]. unfold check in B. destruct (_ && _)%bool eqn:C in B; [|discriminate]. apply andb_true_iff in C. destruct C as (C1 & C2).
  apply negb_true_iff in C1, C2. 
  assert (D1 : ~ ((1 # 100000) <= b / a - 2)%Q) by (rewrite <- Qle_bool_iff; congruence). assert (D2 : ~ (b / a - 2 <= - (1 # 100000))%Q) by (rewrite <- Qle_bool_iff; congruence).
  apply Qnot_le_lt in D1, D2. generalize dependent (b / a)%Q. intros x _ _ X1 X2. split; Lqa.lra.
Qed.

Section Lts.
Variables (nElVes nEls : nat) (elVe : list nat) (inDia : list Q) (speed : nat -> Q) (ts0 : list Q).
Hypotheses (H0 : (0 < nEls)%nat) (Hv : length elVe = (nEls * nElVes)%nat) (Hi : length inDia = nEls) (Ht0 : length ts0 = nEls).
Variables (nElFas : nat) (elFaEl : list (option nat)) (nr : nat) (fdt : Q) (gI : list (option Q)) (gT gN : list nat).
Hypotheses (Hm : mesh_ok nElFas nEls elFaEl) (Hf : (0 < fdt /\ fdt <= 1)%Q) (HgI : length gI = (nr + 2)%nat) (HgT : length gT = nEls) (HgN : length gN = (nr + 1)%nat).
(** the solver: parameters of the elements, largest number, order, elements of the ranks *)
Variables (pars : nat -> par) (big : R) (ord : nat) (ranks : list (list nat)) (velModEl : bool).
Local Notation vp := (speedOf nElVes elVe velModEl speed).
Local Notation lim := (fun el => limit ord (Q2R (nth el inDia 0%Q)) (Q2R (vp el))).
Hypotheses (Ho : (1 <= ord)%nat) (Hs : forall el, (el < nEls)%nat -> (0 < vp el)%Q) (Hd : forall d, In d inDia -> (0 < d)%Q).
(** the solver's material has the speeds which the preprocessor used *)
Hypothesis Hp : forall el, (el < nEls)%nat -> velP (pars el) = Ok (Q2R (vp el)).
Hypotheses (Hr : forall el, In el (concat ranks) <-> (el < nEls)%nat) (Hb : forall el, (el < nEls)%nat -> lim el <= big).

(** No element's time step exceeds the element's own stable time step. *)
Theorem C96_lts_stable : exists fuel0, forall fuel, (fuel0 <= fuel)%nat -> exists m ts g gm,
  setTimeSteps nElVes nEls elVe inDia velModEl speed ts0 = Ok (m, ts) /\ mkTimeGroups fuel nElFas nEls elFaEl (repeat 2%Q nr) fdt ts gI gT gN = Ok g /\
  globalMin big ord (map (map (fun el => (Q2R (nth el inDia 0%Q), pars el))) ranks) = Ok gm /\
  forall el, (el < nEls)%nat -> exists dt, groupStep (nr + 1) (gIntervals g) gm (at_ (gElTg g) el) = Ok dt /\ 0 < dt <= lim el /\
    (nr <> 0%nat -> dt = Q2R fdt * 2 ^ at_ (gElTg g) el * gm).
Proof.
  destruct (C26_cfl nElVes nEls elVe inDia velModEl speed ts0 H0 Hv Hi Ht0 Hs Hd) as (m & ts & Ets & Pm & Lts & Rel & Ge1 & el0 & He0 & One).
  destruct (C26_time_groups nElFas nEls elFaEl (repeat 2%Q nr) fdt ts gI gT gN Hm (rates_two nr) Hf Lts Ge1) as (f0 & G); [now rewrite repeat_length|exact HgT|now rewrite repeat_length|].
  exists f0. intros fuel Hfu. destruct (G fuel Hfu) as (g & Eg & Int & Lg & Own & _). 
  assert (Dp : forall el, (el < nEls)%nat -> 0 < Q2R (nth el inDia 0%Q)).
  { intros el He. replace 0 with (Q2R 0) by (unfold Q2R; cbn; ring). apply Qlt_Rlt, Hd, nth_In. lia. }
  assert (Vp : forall el, (el < nEls)%nat -> 0 < Q2R (vp el)).
  { intros el He. replace 0 with (Q2R 0) by (unfold Q2R; cbn; ring). apply Qlt_Rlt, Hs, He. }
  assert (F : Forall2 (Forall2 (sound ord)) (map (map (fun el => (Q2R (nth el inDia 0%Q), pars el))) ranks) (map (map lim) ranks)).
  { clear -Hr Dp Vp Hp. assert (A : forall el, In el (concat ranks) -> (el < nEls)%nat) by (intros; now apply Hr). clear Hr. induction ranks as [|r rs IH]; cbn [map]; constructor.
    - assert (B : forall el, In el r -> (el < nEls)%nat) by (intros el H; apply A; cbn; apply in_or_app; now left). clear -B Dp Vp Hp. induction r as [|e r IH]; cbn [map]; constructor.
      + exists (Q2R (vp e)). cbn [fst snd]. specialize (B e (or_introl eq_refl)). auto.
      + apply IH. intros el H. apply B. now right.
    - apply IH. intros el H. apply A. cbn. apply in_or_app. now right. }
  assert (C : forall l, In l (concat (map (map lim) ranks)) <-> exists el, (el < nEls)%nat /\ l = lim el).
  { intros l. rewrite <- concat_map, in_map_iff. split; [intros (el & <- & H); exists el; split; [now apply Hr|reflexivity]|intros (el & H & ->); exists el; split; [reflexivity|now apply Hr]]. }
  destruct (C96_global_minimum big ord Ho _ _ F) as (gm & Egm & Igm & Pgm & Mgm).
  { intros l Hl. apply C in Hl as (el & He & ->). now apply Hb. }
  { rewrite <- concat_map. intros Z. assert (I : In 0%nat (concat ranks)) by (apply Hr; lia). destruct (concat ranks); [destruct I|discriminate]. }
  exists m, ts, g, gm. split; [exact Ets|]. split; [exact Eg|]. split; [exact Egm|].
  set (K := 2 * (2 * INR ord - 1)). assert (O : 1 <= INR ord) by (apply (le_INR 1); exact Ho). assert (PK : 0 < K) by (unfold K; lra).
  assert (L : forall el, (el < nEls)%nat -> lim el = Q2R (nth el ts 0%Q) * Q2R m / K).
  { intros el He. cbv beta. unfold limit. fold K. rewrite <- Q2R_mult. rewrite (Qeq_eqR _ _ (Rel el He)). rewrite Q2R_div; [reflexivity|]. intros Z. specialize (Hs el He). rewrite Z in Hs. discriminate Hs. }
  assert (PM : 0 < Q2R m) by (replace 0 with (Q2R 0) by (unfold Q2R; cbn; ring); apply Qlt_Rlt, Pm).
  assert (GM : gm = Q2R m / K).
  { assert (A : gm <= Q2R m / K). { replace (Q2R m / K) with (lim el0); [apply Mgm, C; eauto|]. rewrite (L el0 He0). rewrite (Qeq_eqR _ _ One). unfold Q2R at 1. cbn. field. lra. }
    apply Rle_antisym; [exact A|]. apply C in Igm as (el & He & ->). rewrite (L el He). apply Rmult_le_compat_r; [left; apply Rinv_0_lt_compat, PK|].
    assert (1 <= Q2R (nth el ts 0%Q)). { replace 1 with (Q2R 1) by (unfold Q2R; cbn; field). apply Qle_Rle, Ge1, nth_In. lia. } nra. }
  intros el He. destruct (relDts_ok nr fdt (gIntervals g) (proj1 Hf) Int) as (rel & Er & E0). unfold groupStep. rewrite Er. cbn [bind]. rewrite E0. cbn [bind]. eexists. split; [reflexivity|].
  set (tg := at_ (gElTg g) el). destruct (Own el (nth el ts 0%Q)) as (S1 & k & (K1 & _) & K3); [apply nth_error_nth'; lia|]. fold tg in S1, K3. rewrite repeat_length in K1.
  assert (DP : INR (dbl tg) = 2 ^ tg). { clear. induction tg as [|t IH]; [reflexivity|]. change (dbl (S t)) with (dbl t * 2)%nat. rewrite mult_INR, IH. cbn [pow INR]. ring. }
  assert (T0 : 0 < 2 ^ tg) by (apply pow_lt; lra).
  assert (S2 : Q2R fdt * 2 ^ tg <= Q2R (nth el ts 0%Q)) by (rewrite <- DP, <- (start_two nr) by lia; now apply Qle_Rle).
  assert (FP : 0 < Q2R fdt) by (replace 0 with (Q2R 0) by (unfold Q2R; cbn; ring); apply Qlt_Rlt, Hf).
  rewrite DP. assert (A : 0 < Q2R m / K) by (apply Rdiv_lt_0_compat; lra). rewrite (L el He), GM. destruct nr as [|nr'].
  - cbn [Nat.eqb]. assert (tg = 0%nat) as -> by lia. cbn [pow]. assert (1 <= Q2R (nth el ts 0%Q)). { replace 1 with (Q2R 1) by (unfold Q2R; cbn; field). apply Qle_Rle, Ge1, nth_In. lia. }
    replace (Q2R 1) with 1 by (unfold Q2R; cbn; field). split; [|congruence]. unfold Rdiv in *. split; [lra|]. rewrite Rmult_assoc. nra.
  - cbn [Nat.eqb]. split; [split; [apply Rmult_lt_0_compat; [apply Rmult_lt_0_compat; [exact FP|exact A]|exact T0]|]|intros _; ring].
    replace (Q2R fdt * (Q2R m / K) * 2 ^ tg) with (Q2R fdt * 2 ^ tg * (Q2R m / K)) by ring. unfold Rdiv. rewrite (Rmult_assoc (Q2R (nth el ts 0%Q))). apply Rmult_le_compat_r; [left; exact A|exact S2].
Qed.
End Lts.

(** *** Local time stepping with attenuation *)
(** one mechanism at the central frequency 1 / (2 pi), equal quality factors: both Lame parameters are multiplied by [unrelaxed q] *)
Definition unrelaxed (q : R) : R := (sqrt (q * q + 1) + q) * (q + 1) / (2 * (q * q + 1)).
Lemma att_one solve d q lamP muP : 0 < q -> lamP <> 0 -> (forall a b, length a = 1%nat -> length b = 1%nat -> leastSquares 1 1 a b (solve 1%nat 1%nat a b)) ->
  exists s, srcMats solve d 1 (/ (2 * PI)) 1 q q lamP muP = Ok (lamP * unrelaxed q, muP * unrelaxed q, s).
Proof.
  intros Hq Hl C. pose proof PI_RGT_0 as P0. assert (F : frequencies 1 (/ (2 * PI)) 1 = [1]) by (unfold frequencies; cbn [seq map Nat.mul Nat.sub Nat.add]; rewrite sqrt_1; f_equal; field; lra).
  assert (QQ : 0 < q * q + 1) by nra. set (w := sqrt (q * q + 1)). assert (S0 : 0 < w) by (apply sqrt_lt_R0; lra). assert (S1 : w * w = q * q + 1) by (apply sqrt_sqrt; lra).
  assert (Y : solve 1%nat 1%nat (fitMat 1 (1 / q) [1]) (fitRhs 1 (1 / q)) = [2 / (q + 1)]).
  { destruct (C (fitMat 1 (1 / q) [1]) (fitRhs 1 (1 / q)) eq_refl eq_refl) as (L & M). destruct (solve _ _ _ _) as [|y [|? ?]]; try discriminate. f_equal. specialize (M [2 / (q + 1)] eq_refl).
    unfold sumSq, residual, ElSpec.sum, fitMat, fitRhs in M. cbn in M. assert (E : (1 * 1 + 1 * 1 * (1 / q)) / (1 * 1 + 1 * 1) = (q + 1) / (2 * q)) by (field; lra). rewrite E in M.
    assert (Z : (q + 1) / (2 * q) * (2 / (q + 1)) - 1 / q = 0) by (field; lra).
    assert (A : forall x y : R, (x - y = 0)%R -> x = y) by (intros; lra). assert (B : (q + 1) / (2 * q) * y - 1 / q = 0).
    { set (a := (q + 1) / (2 * q)) in *. set (b := 1 / q) in *. set (c := 2 / (q + 1)) in *. nra. }
    assert (0 < (q + 1) / (2 * q)) by (apply Rdiv_lt_0_compat; lra). apply (Rmult_eq_reg_l ((q + 1) / (2 * q))); lra. }
  unfold srcMats, anelasticCoeffLame, anelasticCoeffPs. cbn [Nat.eqb Nat.ltb Nat.leb check bind]. rewrite !(quo_ok 1 q) by lra. cbn [bind].
  rewrite F. change (2 * 1 - 1)%nat with 1%nat. rewrite Y. cbn [bind]. unfold elasticLame. cbn [seq fold_left nth Nat.mul].
  replace (2 * PI * / (2 * PI) / 1) with 1 by (field; lra). replace (1 - 2 / (q + 1) * (1 / (1 + 1 * 1))) with (q / (q + 1)) by (field; lra). replace (0 + 2 / (q + 1) * 1 * (1 / (1 + 1 * 1))) with (1 / (q + 1)) by (field; lra).
  assert (X : sqrt (q / (q + 1) * (q / (q + 1)) + 1 / (q + 1) * (1 / (q + 1))) = w / (q + 1)).
  { replace (q / (q + 1) * (q / (q + 1)) + 1 / (q + 1) * (1 / (q + 1))) with (w / (q + 1) * (w / (q + 1))). 2:{ replace (w / (q + 1) * (w / (q + 1))) with (w * w / ((q + 1) * (q + 1))) by (field; lra). rewrite S1. field. lra. } apply sqrt_square. left. apply Rdiv_lt_0_compat; lra. }
  rewrite X. assert (N : 2 * (w / (q + 1)) * (w / (q + 1)) = 2 * (q * q + 1) / ((q + 1) * (q + 1))) by (rewrite <- S1; field; lra).
  assert (N0 : 2 * (w / (q + 1)) * (w / (q + 1)) <> 0) by (rewrite N; apply Rgt_not_eq, Rdiv_lt_0_compat; nra).
  rewrite !quo_ok by exact N0. cbn [bind]. rewrite N.
  assert (G : (w / (q + 1) + q / (q + 1)) / (2 * (q * q + 1) / ((q + 1) * (q + 1))) = unrelaxed q) by (unfold unrelaxed; fold w; field; lra).
  assert (G0 : 0 < unrelaxed q) by (unfold unrelaxed; fold w; apply Rdiv_lt_0_compat; nra).
  replace (muP * (w / (q + 1) + q / (q + 1)) / (2 * (q * q + 1) / ((q + 1) * (q + 1)))) with (muP * unrelaxed q) by (rewrite <- G; unfold Rdiv; ring). rewrite G.
  replace ((lamP + 2 * muP) * unrelaxed q - 2 * (muP * unrelaxed q)) with (lamP * unrelaxed q) by ring. rewrite quo_ok; [|apply Rmult_integral_contrapositive; split; lra]. cbn [bind]. eexists. reflexivity.
Qed.
Lemma unrelaxed_a : unrelaxed (24 / 7) = 1519 / 1250.
Proof. unfold unrelaxed. replace (24 / 7 * (24 / 7) + 1) with (25 / 7 * (25 / 7)) by field. rewrite sqrt_square by lra. field. Qed.
Lemma unrelaxed_b : unrelaxed (4 / 3) = 63 / 50.
Proof. unfold unrelaxed. replace (4 / 3 * (4 / 3) + 1) with (5 / 3 * (5 / 3)) by field. rewrite sqrt_square by lra. field. Qed.

Lemma velP_scale k : 0 < k -> velP {| pRho := 1; pLam := 2 * k; pMu := 1 * k; pQp := 0; pQs := 0 |} = Ok (2 * sqrt k).
Proof.
  intros H. unfold velP. cbn [pRho pLam pMu]. rewrite quo_ok by lra. cbn [bind]. replace ((2 * k + 2 * (1 * k)) / 1) with (2 * 2 * k) by field. rewrite posR_true by lra. f_equal. rewrite sqrt_mult by lra. rewrite sqrt_square by lra. reflexivity.
Qed.
Lemma velP_q p q : velP {| pRho := 1; pLam := pLam p; pMu := pMu p; pQp := q; pQs := q |} = velP {| pRho := 1; pLam := pLam p; pMu := pMu p; pQp := 0; pQs := 0 |}.
Proof. reflexivity. Qed.

(** Two elements with the same wave speed 2, diameters 2 and 4 and quality factors 24/7 and 4/3: the preprocessor gives the second element the double time step. After the conversion of the parameters for
    attenuation, the speed of the second element is greater than that of the first: its time step exceeds its stable one. *)
Theorem C96_attenuation_refuted solve d ord big : (forall a b, length a = 1%nat -> length b = 1%nat -> leastSquares 1 1 a b (solve 1%nat 1%nat a b)) -> (1 <= ord)%nat -> 2 <= big ->
  let els := [(2, {| pRho := 1; pLam := 2; pMu := 1; pQp := 24 / 7; pQs := 24 / 7 |}); (4, {| pRho := 1; pLam := 2; pMu := 1; pQp := 4 / 3; pQs := 4 / 3 |})] in
  (forall e, In e els -> velP (snd e) = Ok 2) /\
  exists m ts g, setTimeSteps 1 2 [0; 1]%nat [2; 4]%Q false (fun _ => 2%Q) [0; 0]%Q = Ok (m, ts) /\ mkTimeGroups 10 2 2 [Some 1%nat; None; Some 0%nat; None] [2]%Q 1 ts [None; None; None] [0; 0]%nat [0; 0]%nat = Ok g /\ gElTg g = [0; 1]%nat /\
  exists e0 e1 v gm dt, withAtt solve d 1 (/ (2 * PI)) 1 els = Ok [e0; e1] /\ velP (snd e1) = Ok v /\ 0 < v /\ fst e1 = 4 /\ globalMin big ord [[e0; e1]] = Ok gm /\ groupStep 2 (gIntervals g) gm 1 = Ok dt /\ limit ord (fst e1) v < dt.
Proof.
  intros C Ho Hb els. split.
  { intros e [<-|[<-|[]]]; cbn [snd]; unfold velP; cbn [pRho pLam pMu]; rewrite quo_ok by lra; cbn [bind]; replace ((2 + 2 * 1) / 1) with (2 * 2) by field; rewrite posR_true, sqrt_square by lra; reflexivity. }
  set (A := 1519 / 1250). set (B := 63 / 50). assert (AP : 1 < A) by (unfold A; lra). assert (AB : A < B) by (unfold A, B; lra). assert (B4 : B < 4 * A) by (unfold A, B; lra).
  assert (SA : 1 < sqrt A) by (rewrite <- sqrt_1; apply sqrt_lt_1; lra). assert (SAB : sqrt A < sqrt B) by (apply sqrt_lt_1; lra).
  assert (SB : sqrt B < 2 * sqrt A). { replace (2 * sqrt A) with (sqrt (2 * 2 * A)) by (rewrite sqrt_mult by lra; rewrite sqrt_square by lra; reflexivity). apply sqrt_lt_1; lra. }
  assert (O : 1 <= INR ord) by (apply (le_INR 1); exact Ho).
  eexists _, _, _. split; [vm_compute; reflexivity|]. split; [vm_compute; reflexivity|]. split; [reflexivity|].
  destruct (att_one solve d (24 / 7) 2 1 ltac:(lra) ltac:(lra) C) as (s0 & E0). destruct (att_one solve d (4 / 3) 2 1 ltac:(lra) ltac:(lra) C) as (s1 & E1). rewrite unrelaxed_a in E0. rewrite unrelaxed_b in E1. fold A in E0. fold B in E1.
  eexists _, _, (2 * sqrt B), (limit ord 2 (2 * sqrt A)), _.
  split. { unfold withAtt, els. cbn [Nat.ltb Nat.leb map snd fst pLam pMu pQp pQs initSrcA bLam bMu bQp bQs]. rewrite E0. cbn [bind]. rewrite E1. cbn [bind combine map fst snd bLam bMu bQp bQs pRho]. reflexivity. }
  cbn [fst snd]. assert (VA : forall q, velP {| pRho := 1; pLam := 2 * A; pMu := 1 * A; pQp := q; pQs := q |} = Ok (2 * sqrt A)) by (intros q; apply (velP_scale A); lra).
  assert (VB : forall q, velP {| pRho := 1; pLam := 2 * B; pMu := 1 * B; pQp := q; pQs := q |} = Ok (2 * sqrt B)) by (intros q; apply (velP_scale B); lra).
  split; [apply VB|]. split; [lra|]. split; [reflexivity|].
  assert (K : 0 < 2 * (2 * INR ord - 1)) by lra. assert (L01 : limit ord 2 (2 * sqrt A) <= limit ord 4 (2 * sqrt B)).
  { unfold limit. apply Rmult_le_compat_r; [left; apply Rinv_0_lt_compat; exact K|]. replace (2 / (2 * sqrt A)) with (/ sqrt A) by (field; lra). replace (4 / (2 * sqrt B)) with (/ (sqrt B / 2)) by (field; lra). apply Rinv_le_contravar; lra. }
  assert (L1b : limit ord 4 (2 * sqrt B) <= big).
  { unfold limit. replace (4 / (2 * sqrt B)) with (2 * / sqrt B) by (field; lra). assert (/ sqrt B < 1) by (rewrite <- Rinv_1; apply Rinv_1_lt_contravar; lra). assert (0 < / sqrt B) by (apply Rinv_0_lt_compat; lra).
    apply (Rmult_le_reg_r (2 * (2 * INR ord - 1))); [exact K|]. unfold Rdiv. rewrite Rmult_assoc, Rinv_l by lra. nra. }
  split.
  { unfold globalMin, cflStats. cbn [fold_left bind fst snd]. destruct (cflStep_ok ord 2 _ (2 * sqrt A) Ho ltac:(lra) ltac:(lra) (VA (24 / 7))) as (-> & _). cbn [bind]. destruct (cflStep_ok ord 4 _ (2 * sqrt B) Ho ltac:(lra) ltac:(lra) (VB (4 / 3))) as (-> & _). cbn [bind].
    f_equal. rewrite (Rmin_right big (limit ord 2 (2 * sqrt A))) by lra. rewrite (Rmin_left (limit ord 2 (2 * sqrt A))) by exact L01. apply Rmin_right. lra. }
  split; [vm_compute relDts; unfold groupStep, relDts; cbn; reflexivity|].
  change (dbl 1) with 2%nat. replace (Q2R 1) with 1 by (unfold Q2R; cbn; field). change (INR 2) with (1 + 1). unfold limit.
  replace (1 * (2 / (2 * sqrt A) / (2 * (2 * INR ord - 1))) * (1 + 1)) with (4 / (2 * sqrt A) / (2 * (2 * INR ord - 1))) by (field; lra).
  apply Rmult_lt_compat_r; [apply Rinv_0_lt_compat; exact K|]. apply Rmult_lt_compat_l; [lra|]. apply Rinv_lt_contravar; nra.
Qed.

(** *** Search for the fundamental time step *)
Open Scope Q_scope.
Definition cand (i : nat) : Q := Nat.iter i (fun d => d - (1 # 100)) 1.
Lemma cand_eq i : cand i == 1 - inject_Z (Z.of_nat i) / 100.
Proof. induction i as [|i IH]; [reflexivity|]. unfold cand in *. cbn [Nat.iter nat_rect]. fold (Nat.iter i (fun d => d - (1 # 100)) 1). rewrite IH. rewrite Nat2Z.inj_succ. unfold Z.succ. rewrite inject_Z_plus. field. Qed.
Lemma cand_range i : (i < 50)%nat -> (1 # 2) < cand i /\ cand i <= 1.
Proof.
  intros H. rewrite cand_eq. assert (A : inject_Z (Z.of_nat i) <= inject_Z 49) by (rewrite <- Zle_Qle; lia). assert (B : inject_Z 0 <= inject_Z (Z.of_nat i)) by (rewrite <- Zle_Qle; lia).
  change (inject_Z 0) with 0 in B. change (inject_Z 49) with 49 in A. generalize dependent (inject_Z (Z.of_nat i)). intros q A B. split; [apply (Qlt_le_trans _ (1 - 49 / 100)); [reflexivity|]|]; unfold Qdiv; change (/ 100) with (1 # 100); nra.
Qed.
Lemma cand_end : Qle_bool (cand 50) (1 # 2) = true.
Proof. reflexivity. Qed.
Lemma search_ok construct : (forall i, (i < 50)%nat -> exists s, speedUp construct (cand i) = Ok s /\ 0 < s) -> forall n k best su fuel, (k + n = 50)%nat -> (n <= fuel)%nat ->
  exists b s, searchDt fuel construct (cand k) best su = Ok b /\ su <= s /\ (forall i s', (k <= i < 50)%nat -> speedUp construct (cand i) = Ok s' -> s' <= s) /\
  ((b = best /\ s = su) \/ exists j, (k <= j < 50)%nat /\ b = cand j /\ speedUp construct (cand j) = Ok s).
Proof.
  intros H. induction n as [|n IH]; intros k best su fuel Hk Hf.
  - assert (k = 50)%nat as -> by lia. exists best, su. destruct fuel; cbn [searchDt]; rewrite cand_end; (split; [reflexivity|]; split; [apply Qle_refl|]; split; [lia|]; left; auto).
  - destruct fuel as [|fuel]; [lia|]. cbn [searchDt]. destruct (cand_range k ltac:(lia)) as (R1 & R2). destruct (Qle_bool (cand k) (1 # 2)) eqn:EQ; [apply Qle_bool_iff in EQ; exfalso; apply (Qlt_not_le _ _ R1); exact EQ|].
    destruct (H k ltac:(lia)) as (s0 & E0 & P0). rewrite E0. cbn [bind]. change (cand k - (1 # 100)) with (cand (S k)). destruct (Qle_bool s0 su) eqn:EL.
    + apply Qle_bool_iff in EL. destruct (IH (S k) best su fuel ltac:(lia) ltac:(lia)) as (b & s & E & L & M & A). exists b, s. split; [exact E|]. split; [exact L|]. split.
      * intros i s' Hi Es. destruct (Nat.eq_dec i k) as [->|N]; [assert (s' = s0) as -> by congruence; eapply Qle_trans; eauto|]. apply (M i); [lia|exact Es].
      * destruct A as [A|(j & Hj & A)]; [now left|right; exists j; split; [lia|exact A]].
    + destruct (IH (S k) (cand k) s0 fuel ltac:(lia) ltac:(lia)) as (b & s & E & L & M & A). exists b, s. split; [exact E|]. assert (LS : su <= s0). { destruct (Qlt_le_dec s0 su) as [Z|Z]; [|exact Z]. apply Qlt_le_weak, Qle_bool_iff in Z. congruence. }
      split; [eapply Qle_trans; eauto|]. split.
      * intros i s' Hi Es. destruct (Nat.eq_dec i k) as [->|N]; [assert (s' = s0) as -> by congruence; exact L|]. apply (M i); [lia|exact Es].
      * right. destruct A as [(-> & ->)|(j & Hj & A)]; [exists k; split; [lia|auto]|exists j; split; [lia|exact A]].
Qed.
Lemma load_one n : load (fun _ => 1) n == inject_Z (Z.of_nat n).
Proof. unfold load. induction n as [|n IH]; [reflexivity|]. rewrite seq_snoc, fold_left_app. cbn [fold_left]. rewrite IH, Nat2Z.inj_succ. unfold Z.succ. rewrite inject_Z_plus. reflexivity. Qed.
Lemma load_pos f n : (0 < n)%nat -> (forall el, (el < n)%nat -> 0 < f el) -> 0 < load f n.
Proof.
  intros Hn H. unfold load. induction n as [|n IH]; [lia|]. rewrite seq_snoc, fold_left_app. cbn [fold_left Nat.add]. assert (P : 0 < 1 / f n) by (apply Qlt_shift_div_l; [apply H; lia|rewrite Qmult_0_l; reflexivity]).
  destruct n as [|n]; [cbn [seq fold_left]; rewrite Qplus_0_l; exact P|]. specialize (IH ltac:(lia) ltac:(intros; apply H; lia)). apply (Qlt_trans _ (fold_left (fun s el => s + 1 / f el) (seq 0 (S n)) 0)); [exact IH|].
  set (a := fold_left _ _ _) in *. apply (Qle_lt_trans _ (a + 0)); [rewrite Qplus_0_r; apply Qle_refl|]. apply Qplus_lt_r. exact P.
Qed.
Section Search.
Variables (nEls nElFas : nat) (elFaEl : list (option nat)) (nr : nat) (ts : list Q) (gI : list (option Q)) (gT gN : list nat).
Hypotheses (H0 : (0 < nEls)%nat) (Hm : mesh_ok nElFas nEls elFaEl) (Lt : length ts = nEls) (Ht : forall t, In t ts -> 1 <= t) (HgI : length gI = (nr + 2)%nat) (HgT : length gT = nEls) (HgN : length gN = (nr + 1)%nat).
Local Notation construct fuel := (fun dt => mkTimeGroups fuel nElFas nEls elFaEl (repeat 2 nr) dt ts gI gT gN).
(** speed-up over global time stepping with the smallest time step: updates per time *)
Definition gain (dt : Q) (g : groups) (s : Q) : Prop := s == inject_Z (Z.of_nat nEls) / load (fun el => start (repeat 2 nr) dt (at_ (gElTg g) el)) nEls.
Lemma speedUp_ok dt : 0 < dt -> dt <= 1 -> exists fuel0, forall fuel, (fuel0 <= fuel)%nat -> exists s, speedUp (construct fuel) dt = Ok s /\ 0 < s /\ (dt == 1 -> 1 <= s) /\ exists g, construct fuel dt = Ok g /\ gain dt g s.
Proof.
  intros P1 P2. destruct (C26_time_groups nElFas nEls elFaEl (repeat 2 nr) dt ts gI gT gN Hm (rates_two nr) (conj P1 P2) Lt Ht) as (f0 & G); [now rewrite repeat_length|exact HgT|now rewrite repeat_length|].
  exists f0. intros fuel Hfu. destruct (G fuel Hfu) as (g & Eg & Int & Lg & Own & _ & _ & _ & gts & before & after & per & Eload & -> & _ & _ & Ea & _).
  unfold speedUp. rewrite Eg. cbn [bind]. rewrite Eload. cbn [rd nth_error bind].
  set (f := fun el => start (repeat 2 nr) dt (at_ (gElTg g) el)) in Ea.
  assert (K : forall el, (el < nEls)%nat -> dt <= f el).
  { intros el He. destruct (Own el (nth el ts 0)) as (_ & k & (K1 & _) & K3); [apply nth_error_nth'; lia|]. destruct (start_mono (repeat 2 nr) dt (rates_two nr) P1 (at_ (gElTg g) el) ltac:(lia)) as (_ & M). apply (M 0%nat). lia. }
  assert (A : 0 < after) by (rewrite Ea; apply load_pos; [exact H0|]; intros el He; apply (Qlt_le_trans _ dt); [exact P1|apply K, He]).
  destruct (Qeq_bool after 0) eqn:Z; [apply Qeq_bool_iff in Z; rewrite Z in A; discriminate A|]. eexists. split; [reflexivity|].
  assert (N : 0 < inject_Z (Z.of_nat nEls)) by (change 0 with (inject_Z 0); rewrite <- Zlt_Qlt; lia).
  split; [apply Qlt_shift_div_l; [exact A|rewrite Qmult_0_l; exact N]|]. split; [|exists g; split; [reflexivity|unfold gain; fold f; rewrite <- Ea; reflexivity]]. intros D. apply Qle_shift_div_l; [exact A|]. rewrite Qmult_1_l, Ea, <- load_one. apply load_le. intros el He. split; [reflexivity|]. rewrite <- D. apply K, He.
Qed.
(** The search finds the candidate with the greatest speed-up over global time stepping, which is at least one. *)
Theorem C96_search : exists fuel0, forall fuel, (fuel0 <= fuel)%nat -> (exists best g s, funDt (construct fuel) 0 = Ok best /\ construct fuel best = Ok g /\ gain best g s /\ 1 <= s /\
  (exists i, candidate i best) /\ forall i, (i < 50)%nat -> exists dt g' s', candidate i dt /\ construct fuel dt = Ok g' /\ gain dt g' s' /\ s' <= s) /\
  forall cfg, ~ cfg == 0 -> funDt (construct fuel) cfg = Ok cfg.
Proof.
  assert (A : forall n, (n <= 50)%nat -> exists fuel0, forall fuel, (fuel0 <= fuel)%nat -> forall i, (i < n)%nat -> exists s, speedUp (construct fuel) (cand i) = Ok s /\ 0 < s /\ (cand i == 1 -> 1 <= s) /\ exists g, construct fuel (cand i) = Ok g /\ gain (cand i) g s).
  { induction n as [|n IH]; intros Hn; [exists 0%nat; lia|]. destruct (IH ltac:(lia)) as (f1 & F1). destruct (cand_range n ltac:(lia)) as (R1 & R2). destruct (speedUp_ok (cand n)) as (f2 & F2); [apply (Qlt_trans _ (1 # 2)); [reflexivity|exact R1]|exact R2|].
    exists (Nat.max f1 f2). intros fuel Hf i Hi. destruct (Nat.eq_dec i n) as [->|N]; [apply F2; lia|apply F1; lia]. }
  destruct (A 50%nat ltac:(lia)) as (f0 & F). exists f0. intros fuel Hf. specialize (F fuel Hf).
  split; [|intros cfg Hc; unfold funDt; destruct (Qeq_bool cfg 0) eqn:Z; [apply Qeq_bool_iff in Z; contradiction|reflexivity]].
  destruct (search_ok (construct fuel)) with (n := 50%nat) (k := 0%nat) (best := 0) (su := 0) (fuel := 100%nat) as (b & s & E & L & M & C); [intros i Hi; destruct (F i Hi) as (s & E & P & _); eauto|lia|lia|].
  destruct (F 0%nat ltac:(lia)) as (s0 & E0 & P0 & Q0 & _). pose proof (M 0%nat s0 ltac:(lia) E0) as M0. destruct C as [(-> & ->)|(j & Hj & -> & Es)]; [exfalso; apply (Qlt_not_le _ _ P0); exact M0|].
  destruct (F j ltac:(lia)) as (s1 & E1 & _ & _ & g & Eg & Gg). assert (s1 = s) as -> by congruence.
  exists (cand j), g, s. split; [exact E|]. split; [exact Eg|]. split; [exact Gg|]. split; [apply (Qle_trans _ s0); [apply Q0; reflexivity|exact M0]|]. split; [exists j; split; [lia|apply cand_eq]|].
  intros i Hi. destruct (F i Hi) as (s' & E' & _ & _ & g' & Eg' & Gg'). exists (cand i), g', s'. split; [split; [exact Hi|apply cand_eq]|]. split; [exact Eg'|]. split; [exact Gg'|]. apply (M i); [lia|exact E'].
Qed.
End Search.
Close Scope Q_scope.

(** With the velocity model of the mesh (means of the preprocessor's vertex speeds, see C95_average), the solver's wave speeds are the preprocessor's: the hypothesis of [C96_lts_stable] is met. *)
Theorem C96_mesh_matches nElVes nEls elVe speed vss rhos ps : let vps := map (fun el => Q2R (speedOf nElVes elVe false speed el)) (seq 0 nEls) in
  length ps = nEls -> length vss = nEls -> length rhos = nEls -> (forall el, (el < nEls)%nat -> (0 < speedOf nElVes elVe false speed el)%Q /\ 0 < nth el vss 0 /\ 0 < nth el rhos 0 /\ 2 * (nth el vss 0 * nth el vss 0) < nth el vps 0 * nth el vps 0) ->
  exists ps', fromMesh nEls vps vss rhos ps = Ok (true, ps') /\ forall el, (el < nEls)%nat -> exists p, nth_error ps' el = Some p /\ velP p = Ok (Q2R (speedOf nElVes elVe false speed el)) /\ velS p = Ok (nth el vss 0).
Proof.
  intros vps L0 L1 L2 H. assert (LV : length vps = nEls) by (unfold vps; now rewrite map_length, seq_length).
  assert (V : forall el, (el < nEls)%nat -> nth el vps 0 = Q2R (speedOf nElVes elVe false speed el)).
  { intros el He. unfold vps. rewrite (nth_indep _ 0 (Q2R (speedOf nElVes elVe false speed 0))) by (rewrite map_length, seq_length; exact He). rewrite (map_nth (fun el => Q2R (speedOf nElVes elVe false speed el)) _ 0%nat), seq_nth by exact He. reflexivity. }
  destruct (C96_from_mesh nEls vps vss rhos ps L0 LV L1 L2) as (ps' & E & _ & P).
  { intros el He. apply C96_mesh_accepted. destruct (H el He) as (H1 & H2 & H3 & H4). repeat split; lra. }
  exists ps'. split; [exact E|]. intros el He. destruct (P el He) as (p & Ep & Em). exists p. split; [exact Ep|]. destruct (H el He) as (H1 & H2 & H3 & H4).
  assert (VP : 0 <= nth el vps 0) by (rewrite V by exact He; replace 0 with (Q2R 0) by (unfold Q2R; cbn; ring); apply Qle_Rle, Qlt_le_weak, H1).
  destruct (C96_mesh_speeds (nth el vps 0) (nth el vss 0) (nth el rhos 0) p VP (Rlt_le _ _ H2) Em) as (_ & E1 & E2 & _). rewrite V in E1 by exact He. auto.
Qed.
(** With one time group, the fundamental time step of the preprocessor (here one half) is not used. *)
Theorem C96_one_group_fundamental_refuted gm : 0 < gm -> exists file dt, intervals_of [] (1 # 2) file /\ groupStep 1 file gm 0 = Ok dt /\ dt <> Q2R (1 # 2) * gm.
Proof.
  intros H. exists [Some (1 # 2)%Q; None], (Q2R 1 * gm * INR (dbl 0)). split; [split; [reflexivity|split; [|reflexivity]]|].
  - intros k Hk. cbn [length] in Hk. assert (k = 0%nat) as -> by lia. reflexivity.
  - split; [reflexivity|]. change (INR (dbl 0)) with 1. unfold Q2R. cbn. lra.
Qed.

(** *** Concrete cases *)
Example C96_mesh_ex : exists p, meshPar 2 1 1 = Ok p /\ velP p = Ok 2 /\ velS p = Ok 1.
Proof. destruct (proj2 (C96_mesh_accepted 2 1 1) ltac:(repeat split; lra)) as (p & E). exists p. destruct (C96_mesh_speeds 2 1 1 p ltac:(lra) ltac:(lra) E) as (_ & A & B & _). auto. Qed.
(** a fluid (no shear waves) is rejected *)
Example C96_fluid_ex : ~ exists p, meshPar 2 0 1 = Ok p.
Proof. intros H. apply C96_mesh_accepted in H. destruct H as (_ & H & _). apply H. reflexivity. Qed.
(** two domains, left of zero and everything: two elements, one left, one right *)
Definition left0 (x : list R) : bool := if Rlt_dec (nth 0 x 0) 0 then true else false.
Example C96_domains_ex : exists ps, setPars false 0 1000 1 [(left0, [1; 2; 3; 4; 5]); (fun _ => true, [6; 7; 8; 9; 10])] [[-1]; [0]; [1]] [[0; 1]%nat; [1; 2]%nat] [asPar 0 0 []; asPar 0 0 []] = Ok ps /\
  nth_error ps 0 = Some {| pRho := 1; pLam := 2; pMu := 3; pQp := 1000; pQs := 1000 |} /\ nth_error ps 1 = Some {| pRho := 6; pLam := 7; pMu := 8; pQp := 1000; pQs := 1000 |}.
Proof.
  set (doms := [(left0, [1; 2; 3; 4; 5]); (fun _ => true, [6; 7; 8; 9; 10])] : list dom). set (crds := [[-1]; [0]; [1]]). set (elVe := [[0; 1]%nat; [1; 2]%nat]).
  assert (P0 : place 1 crds elVe 0 = [-1 / 2]) by (unfold place, centre; cbn; f_equal; lra). assert (P1 : place 1 crds elVe 1 = [1 / 2]) by (unfold place, centre; cbn; f_equal; lra).
  assert (F0 : firstInside doms (place 1 crds elVe 0) 0 [1; 2; 3; 4; 5]). { rewrite P0. split; [|lia]. exists left0. split; [reflexivity|]. unfold left0. cbn. destruct (Rlt_dec (-1 / 2) 0); [reflexivity|lra]. }
  assert (F1 : firstInside doms (place 1 crds elVe 1) 1 [6; 7; 8; 9; 10]).
  { rewrite P1. split; [exists (fun _ => true); auto|]. intros j f w Hj E. assert (j = 0%nat) as -> by lia. cbn in E. injection E as <- <-. unfold left0. cbn. destruct (Rlt_dec (1 / 2) 0); [lra|reflexivity]. }
  destruct (C96_domains 0 1000 1 doms crds elVe [asPar 0 0 []; asPar 0 0 []]) with (vm := false) as (ps & E & _ & H).
  - intros f w [X|[X|[]]]; injection X as <- <-; reflexivity.
  - intros ves v [<-|[<-|[]]] Hv; cbn in Hv; destruct Hv as [<-|[<-|[]]]; eexists; split; try reflexivity; cbn; lia.
  - reflexivity.
  - intros [|[|el]] He; cbn in He; [left; eauto|left; eauto|lia].
  - exists ps. split; [exact E|]. split; [rewrite (proj1 (H 0%nat ltac:(cbn; lia)) _ _ F0); reflexivity|rewrite (proj1 (H 1%nat ltac:(cbn; lia)) _ _ F1); reflexivity].
Qed.
(** the two elements of [C96_attenuation_refuted] without attenuation, on two ranks (and an empty one): steps 1/2 and 1 for order one, the stable ones *)
Example C96_lts_ex : exists fuel g gm, mkTimeGroups fuel 2 2 [Some 1%nat; None; Some 0%nat; None] (repeat 2%Q 1) 1 [1; 2]%Q [None; None; None] [0; 0]%nat [0; 0]%nat = Ok g /\ gElTg g = [0; 1]%nat /\
  globalMin 1000 1 [[(2, {| pRho := 1; pLam := 2; pMu := 1; pQp := 0; pQs := 0 |})]; []; [(4, {| pRho := 1; pLam := 2; pMu := 1; pQp := 0; pQs := 0 |})]] = Ok gm /\
  exists d0 d1, groupStep 2 (gIntervals g) gm 0 = Ok d0 /\ groupStep 2 (gIntervals g) gm 1 = Ok d1 /\ d0 = 1 / 2 /\ d1 = 1 /\ limit 1 2 2 = 1 / 2 /\ limit 1 4 2 = 1.
Proof.
  assert (V : velP {| pRho := 1; pLam := 2; pMu := 1; pQp := 0; pQs := 0 |} = Ok 2).
  { unfold velP. cbn [pRho pLam pMu]. rewrite quo_ok by lra. cbn [bind]. replace ((2 + 2 * 1) / 1) with (2 * 2) by field. rewrite posR_true, sqrt_square by lra. reflexivity. }
  assert (L0 : limit 1 2 2 = 1 / 2) by (unfold limit; cbn [INR]; field). assert (L1 : limit 1 4 2 = 1) by (unfold limit; cbn [INR]; field).
  exists 10%nat. eexists _, (1 / 2). split; [vm_compute; reflexivity|]. split; [reflexivity|]. split.
  - unfold globalMin, cflStats. cbn [fold_left bind fst snd]. destruct (cflStep_ok 1 2 _ 2 ltac:(lia) ltac:(lra) ltac:(lra) V) as (-> & _). cbn [bind]. destruct (cflStep_ok 1 4 _ 2 ltac:(lia) ltac:(lra) ltac:(lra) V) as (-> & _). cbn [bind]. rewrite L0, L1. f_equal. unfold Rmin. repeat destruct (Rle_dec _ _); lra.
  - eexists _, _. split; [vm_compute relDts; unfold groupStep, relDts; cbn; reflexivity|]. split; [vm_compute relDts; unfold groupStep, relDts; cbn; reflexivity|]. change (dbl 0) with 1%nat. change (dbl 1) with 2%nat. cbn [INR]. unfold Q2R. cbn. repeat split; lra || assumption.
Qed.
(** three elements with relative steps 1, 13/10 and 2: the fundamental step one is not the best *)
Example C96_search_ex : exists best, funDt (fun dt => mkTimeGroups 10 2 3 [None; Some 1%nat; Some 0%nat; Some 2%nat; Some 1%nat; None] (repeat 2%Q 2) dt [1; 13 # 10; 19 # 10]%Q [None; None; None; None] [0; 0; 0]%nat [0; 0; 0]%nat) 0 = Ok best /\ Qred best = (19 # 20)%Q.
Proof. eexists. split; [vm_compute; reflexivity|]. vm_compute. reflexivity. Qed.

Print Assumptions C96_mesh_speeds.
Print Assumptions C96_mesh_accepted.
Print Assumptions C96_from_mesh.
Print Assumptions C96_mesh_matches.
Print Assumptions C96_domains.
Print Assumptions C96_domains_missing.
Print Assumptions C96_statistics.
Print Assumptions C96_global_minimum.
Print Assumptions C96_one_group.
Print Assumptions C96_one_group_fundamental_refuted.
Print Assumptions C96_rate_two.
Print Assumptions C96_lts_stable.
Print Assumptions C96_attenuation_refuted.
Print Assumptions C96_search.
