(** Proofs about the time step of the local Lax-Friedrichs solver. *)
From Coq Require Import List Arith Bool Reals Lra Lia.
From Verif Require Import Util MatMul ElGen Elastic ElSpec ElWave ElTrafo ElFlux ElMid ElMid2 ElFace Llf LlfSpec LlfV.
Import ListNotations.
Open Scope R_scope.

Lemma len_vscale c a : length (vscale c a) = length a. Proof. apply map_length. Qed.
Lemma len_flux d m n q : dim d -> length (flux d m n q) = nQt d. Proof. intros D. apply mk_length; auto. Qed.
Lemma len_zeros n : length (zeros n) = n. Proof. apply repeat_length. Qed.
Lemma nth_zeros n i : nth i (zeros n) 0 = 0.
Proof. unfold zeros. destruct (Nat.lt_ge_cases i n); [now apply nth_repeat|apply nth_overflow; rewrite repeat_length; auto]. Qed.
Lemma len_llf d m m' n q q' : dim d -> length q = nQt d -> length q' = nQt d -> length (llf d m m' n q q') = nQt d.
Proof. intros D L L'. unfold llf. apply len_vsub; rewrite len_vscale; [apply len_vadd; apply len_flux; auto|apply len_vsub; auto]. Qed.
Lemma len_vsum n l : (forall a, In a l -> length a = n) -> length (vsum n l) = n.
Proof. induction l as [|a l IH]; intros H; cbn; [apply len_zeros|]. apply len_vadd; [apply H; now left|apply IH; intros; apply H; now right]. Qed.
Lemma vec_ext n a b : length a = n -> length b = n -> (forall i, (i < n)%nat -> nth i a 0 = nth i b 0) -> a = b.
Proof. intros A B H. apply nth_ext with 0 0; [congruence|]. intros i Hi. apply H. lia. Qed.
Lemma nth_llf d m m' n q q' i : dim d -> length q = nQt d -> length q' = nQt d ->
  nth i (llf d m m' n q q') 0 = 1 / 2 * (nth i (flux d m n q) 0 + nth i (flux d m' n q') 0) - Rmax (speedP m) (speedP m') / 2 * (nth i q' 0 - nth i q 0).
Proof.
  intros D L L'. unfold llf. rewrite nth_vsub by (rewrite !len_vscale, (len_vadd _ _ (nQt d)), (len_vsub _ _ (nQt d)); auto; apply len_flux; auto).
  rewrite !nth_vscale, nth_vadd, nth_vsub by (rewrite ?len_flux; auto; congruence). reflexivity.
Qed.

(** ** Loops *)
Lemma addFlux_ok d dt c0 c1 v sca q qa o : dim d -> length c0 = (nQt d * nQt d)%nat -> length c1 = (nQt d * nQt d)%nat -> length q = nQt d -> length qa = nQt d -> length o = nQt d ->
  exists o', addFlux d dt c0 c1 v sca q qa o = Ok o' /\ length o' = nQt d /\ forall i, (i < nQt d)%nat ->
    nth i o' 0 = nth i o 0 + dt * v * (nth i q 0 - nth i qa 0) + sca * (nth i (mv (nQt d) (nQt d) c0 q) 0 + nth i (mv (nQt d) (nQt d) c1 qa) 0).
Proof.
  intros D L0 L1 Lq La Lo. unfold addFlux. rewrite (nQts_eq d D). set (n := nQt d) in *.
  match goal with |- exists _, for_ 0 n ?b o = _ /\ _ => destruct (for_ok (fun k o' => length o' = n /\ (forall i, (i < k)%nat ->
      nth i o' 0 = nth i o 0 + dt * v * (nth i q 0 - nth i qa 0) + sca * (nth i (mv n n c0 q) 0 + nth i (mv n n c1 qa) 0)) /\ forall i, (k <= i)%nat -> nth i o' 0 = nth i o 0) 0 n b o) as (o' & E & L & H & _) end.
  - lia.
  - split; [auto|]. split; auto. intros; lia.
  - intros k o1 Hk (Lo1 & H1 & H2). rewrite !(rd_ok _ _ 0) by lia. cbn [bind].
    match goal with |- exists _, bind (for_ 0 n ?b ?x) _ = _ /\ _ => destruct (for_ok (fun j y => y = x + sca * (sum j (fun j => nth (k * n + j) c0 0 * nth j q 0) + sum j (fun j => nth (k * n + j) c1 0 * nth j qa 0))) 0 n b x) as (y & E & Y) end.
    + lia.
    + rewrite !sum_0. ring.
    + intros j y Hj Y. assert (k * n + j < n * n)%nat by nia. rewrite !(rd_ok _ _ 0) by lia. cbn [bind]. eexists. split; [reflexivity|]. rewrite Y, !sum_S. ring.
    + rewrite E. cbn [bind]. rewrite wr_ok by lia. eexists. split; [reflexivity|]. split; [rewrite length_upd; auto|].
      assert (U : nth k (upd o1 k y) 0 = y) by (apply nth_error_nth; apply nth_error_upd_eq; lia).
      assert (UN : forall i, i <> k -> nth i (upd o1 k y) 0 = nth i o1 0).
      { intros i Hi. destruct (Nat.lt_ge_cases i (length o1)) as [Q|Q].
        - apply nth_error_nth. rewrite nth_error_upd_ne by auto. now apply nth_error_nth'.
        - rewrite !nth_overflow; rewrite ?length_upd; auto. }
      split.
      * intros i Hi. destruct (Nat.eq_dec i k) as [->|N]; [|rewrite UN by auto; apply H1; lia]. rewrite U, Y. rewrite !nth_mv by lia. rewrite (H2 k) by lia. ring.
      * intros i Hi. rewrite UN by lia. apply H2. lia.
  - exists o'. auto.
Qed.
Lemma addNet_ok d qa o : dim d -> length qa = nQt d -> length o = nQt d -> addNet d qa o = Ok (vadd o qa).
Proof.
  intros D La Lo. unfold addNet. rewrite (nQts_eq d D). set (n := nQt d) in *.
  match goal with |- for_ 0 n ?b o = _ => destruct (for_ok (fun k o' => length o' = n /\ (forall i, (i < k)%nat -> nth i o' 0 = nth i o 0 + nth i qa 0) /\ forall i, (k <= i)%nat -> nth i o' 0 = nth i o 0) 0 n b o) as (o' & E & L & H & _) end.
  - lia.
  - split; [auto|]. split; auto. intros; lia.
  - intros k o1 Hk (Lo1 & H1 & H2). rewrite !(rd_ok _ _ 0) by lia. cbn [bind]. rewrite wr_ok by lia. eexists. split; [reflexivity|]. split; [rewrite length_upd; auto|].
    set (y := nth k o1 0 + nth k qa 0).
    assert (U : nth k (upd o1 k y) 0 = y) by (apply nth_error_nth; apply nth_error_upd_eq; lia).
    assert (UN : forall i, i <> k -> nth i (upd o1 k y) 0 = nth i o1 0).
    { intros i Hi. destruct (Nat.lt_ge_cases i (length o1)) as [Q|Q].
      - apply nth_error_nth. rewrite nth_error_upd_ne by auto. now apply nth_error_nth'.
      - rewrite !nth_overflow; rewrite ?length_upd; auto. }
    split.
    + intros i Hi. destruct (Nat.eq_dec i k) as [->|N]; [|rewrite UN by auto; apply H1; lia]. rewrite U. unfold y. rewrite H2 by lia. auto.
    + intros i Hi. rewrite UN by lia. apply H2. lia.
  - rewrite E. f_equal. apply (vec_ext n); auto; [apply len_vadd; auto|]. intros i Hi. rewrite nth_vadd by congruence. auto.
Qed.

Section Step.
Variables (d nsf nsc : nat) (mats : list material) (e : elem) (mem : list (list R) * list R) (dt : R).
Hypothesis D : dim d.
Hypothesis W : wfElem d mats e.
Hypothesis N0 : (0 < nsc)%nat.
Let nf := nFaces e.
Let nt := nPlanes e.
Hypothesis OW : forall ty, (ty < nt)%nat -> own d mats e (pscale nsf nsc e ty) mem ty.
Hypothesis OT : forall ty, (ty < nf)%nat -> oth d mats e (pscale nsf nsc e ty) mem ty.

Lemma nf_nt : (nf <= nt)%nat. Proof. unfold nf, nt, nPlanes, nFaces. lia. Qed.

(** ids and sides of the types *)
Definition ids (t : sfType) : bool * nat * nat :=
  match t with Outer fa => (true, fa, (nt + fa)%nat) | OuterRight fa => (false, fa, (nt + fa)%nat) | InnerLeft p => (true, p, p) | InnerRight p => (false, p, p) end.
Lemma llfIds_ok t : validType e t -> llfIds nf nt (code e t) = ids t.
Proof.
  assert (H := nf_nt). unfold validType, code, llfIds, ids. fold nf nt. destruct t as [a|a|p|p]; intros V.
  - replace (a <? 2 * nf)%nat with true by (symmetry; apply Nat.ltb_lt; lia). replace (a <? nf)%nat with true by (symmetry; apply Nat.ltb_lt; lia). rewrite Nat.mod_small by lia. rewrite (Nat.add_comm a). reflexivity.
  - replace (nf + a <? 2 * nf)%nat with true by (symmetry; apply Nat.ltb_lt; lia). replace (nf + a <? nf)%nat with false by (symmetry; apply Nat.ltb_ge; lia).
    replace ((nf + a) mod nf)%nat with a; [rewrite (Nat.add_comm a); reflexivity|]. symmetry. replace (nf + a)%nat with (a + 1 * nf)%nat by lia. rewrite Nat.mod_add, Nat.mod_small by lia. reflexivity.
  - replace (2 * nf + p <? 2 * nf)%nat with false by (symmetry; apply Nat.ltb_ge; lia). replace (2 * nf + p - 2 * nf)%nat with p by lia. replace (p <? nt)%nat with true by (symmetry; apply Nat.ltb_lt; lia).
    rewrite Nat.mod_small by lia. rewrite Nat.add_0_r. reflexivity.
  - replace (2 * nf + nt + p <? 2 * nf)%nat with false by (symmetry; apply Nat.ltb_ge; lia). replace (2 * nf + nt + p - 2 * nf)%nat with (p + 1 * nt)%nat by lia. replace (p + 1 * nt <? nt)%nat with false by (symmetry; apply Nat.ltb_ge; lia).
    rewrite Nat.mod_add, Nat.mod_small by lia. rewrite Nat.add_0_r. reflexivity.
Qed.

Lemma plane_lt t : validType e t -> (sfPlane t < nt)%nat.
Proof. assert (H := nf_nt). destruct t; cbn; fold nf nt; lia. Qed.

(** solvers of a type *)
Lemma type_ok t : validType e t -> let '(lft, id0, id1) := ids t in exists C0 C1 v,
  nth_error (fst mem) id0 = Some C0 /\ nth_error (fst mem) id1 = Some C1 /\ nth_error (snd mem) (Nat.max id0 id1) = Some v /\
  let c := pscale nsf nsc e (sfPlane t) in let n := pnrm e (sfPlane t) in
  solves d (- (1 / 2) * c) (matEl mats e) n C0 /\ solves d (- (1 / 2) * c) (matAd mats e t) n C1 /\ v = - (1 / 2) * Rmax (speedP (matEl mats e)) (speedP (matAd mats e t)) * c.
Proof.
  intros V. assert (H := nf_nt). assert (P := plane_lt t V). destruct (OW _ P) as (C0 & A & B & C).
  assert (X : forall fa, (fa < nf)%nat -> exists C0 C1 v, nth_error (fst mem) fa = Some C0 /\ nth_error (fst mem) (nt + fa) = Some C1 /\ nth_error (snd mem) (Nat.max fa (nt + fa)) = Some v /\
    solves d (- (1 / 2) * pscale nsf nsc e fa) (matEl mats e) (pnrm e fa) C0 /\ solves d (- (1 / 2) * pscale nsf nsc e fa) (matAd mats e (Outer fa)) (pnrm e fa) C1 /\
    v = - (1 / 2) * Rmax (speedP (matEl mats e)) (speedP (matAd mats e (Outer fa))) * pscale nsf nsc e fa).
  { intros fa Hf. destruct (OW fa) as (Ca & A1 & B1 & _); [lia|]. destruct (OT fa Hf Hf) as (Cb & A2 & B2 & V2). exists Ca, Cb. eexists. rewrite Nat.max_r by lia. split; [exact A1|]. split; [exact A2|]. split; [exact V2|]. split; [auto|]. split; [auto|]. reflexivity. }
  destruct t as [a|a|p|p]; cbn [ids sfPlane matAd] in *; cbv zeta.
  - apply X. exact V.
  - apply X. exact V.
  - exists C0, C0. eexists. rewrite Nat.max_id. split; [exact A|]. split; [exact A|]. split; [exact C|]. split; [auto|]. split; [auto|]. rewrite Rmax_left by lra. reflexivity.
  - exists C0, C0. eexists. rewrite Nat.max_id. split; [exact A|]. split; [exact A|]. split; [exact C|]. split; [auto|]. split; [auto|]. rewrite Rmax_left by lra. reflexivity.
Qed.

Lemma normal_ok t i : sfNormal e t i = (if fst (fst (ids t)) then pnrm e (sfPlane t) else neg (pnrm e (sfPlane t))) i \/ ~ validType e t.
Proof.
  unfold pnrm, planeDir. destruct t as [a|a|p|p]; cbn [ids fst sfNormal sfPlane validType]; auto.
  - destruct (a <? nFaces e)%nat eqn:E; [left; reflexivity|right]. apply Nat.ltb_ge in E. lia.
  - destruct (a <? nFaces e)%nat eqn:E; [left; reflexivity|right]. apply Nat.ltb_ge in E. lia.
Qed.

Lemma flux_neg m n q i : nth i (flux d m (neg n) q) 0 = - nth i (flux d m n q) 0.
Proof.
  assert (X : flux d m (neg n) q = vscale (- 1) (flux d m n q)).
  { apply (state_ext d); auto; rewrite ?len_vscale; try apply len_flux; auto.
    - intros a b Ha Hb. rewrite sig_vscale, !sig_flux, dot_neg by auto. unfold strain, neg. field.
    - intros a Ha. rewrite vel_vscale, !vel_flux, traction_neg by auto. unfold Rdiv. ring. }
  rewrite X, nth_vscale. ring.
Qed.

Lemma scale_eq p : pscale nsf nsc e p = fAr (plane e p) / INR nsf / scVol nsc e.
Proof.
  unfold pscale, scVol. assert (0 < INR nsc) by (apply lt_0_INR; auto). assert (0 < eVol e) by apply W. unfold Rdiv. rewrite Rinv_mult, Rinv_inv. ring.
Qed.

(** contribution of a sub-face *)
Definition flx (t : sfType) (q q' : list R) : list R := vscale (- (dt / scVol nsc e * sfArea nsf e t)) (llf d (matEl mats e) (matAd mats e t) (sfNormal e t) q q').
Lemma len_flx t q q' : length q = nQt d -> length q' = nQt d -> length (flx t q q') = nQt d. Proof. intros. unfold flx. rewrite len_vscale. apply len_llf; auto. Qed.

Lemma contrib t q qa o C0 C1 v : validType e t -> length q = nQt d -> length qa = nQt d -> length o = nQt d ->
  let c := pscale nsf nsc e (sfPlane t) in let n := pnrm e (sfPlane t) in
  solves d (- (1 / 2) * c) (matEl mats e) n C0 -> solves d (- (1 / 2) * c) (matAd mats e t) n C1 -> v = - (1 / 2) * Rmax (speedP (matEl mats e)) (speedP (matAd mats e t)) * c ->
  addFlux d dt C0 C1 v (if fst (fst (ids t)) then dt else - dt) q qa o = Ok (vadd o (flx t q qa)).
Proof.
  intros V Lq La Lo. cbv zeta. intros (L0 & S0) (L1 & S1) EV. destruct (addFlux_ok d dt C0 C1 v (if fst (fst (ids t)) then dt else - dt) q qa o D L0 L1 Lq La Lo) as (o' & -> & Lo' & H). f_equal.
  assert (LF := len_flx t q qa Lq La). apply (vec_ext (nQt d)); auto; [apply len_vadd; auto|]. intros i Hi. rewrite H, nth_vadd by (auto; congruence). rewrite S0, S1, !nth_vscale by auto. unfold flx. rewrite nth_vscale, nth_llf by auto.
  assert (NF : forall m q, flux d m (sfNormal e t) q = flux d m (if fst (fst (ids t)) then pnrm e (sfPlane t) else neg (pnrm e (sfPlane t))) q).
  { intros. apply flux_ext; auto. intros j _. destruct (normal_ok t j); tauto. }
  rewrite !NF, EV. unfold sfArea. rewrite scale_eq. destruct (fst (fst (ids t))).
  - unfold Rdiv. ring.
  - rewrite !flux_neg. unfold Rdiv. ring.
Qed.

Variables (g : list (list subface)) (netUp : list bool) (dofs : list (list R)).
Hypothesis G : wfGrid e (length dofs) g.
Hypothesis NU : length netUp = nf.
Hypothesis LD : forall q, In q dofs -> length q = nQt d.

Definition chg (q : list R) (s : subface) : list R := change d mats e nsf nsc dt (fun fa => nth fa netUp false) dofs q s.
Lemma dof_len i : (i < length dofs)%nat -> length (nth i dofs []) = nQt d. Proof. intros. apply LD, nth_In. auto. Qed.
Lemma len_chg q s : length q = nQt d -> (sAd s < length dofs)%nat -> length (chg q s) = nQt d.
Proof.
  intros L A. assert (X := dof_len _ A). unfold chg, change. assert (Y := len_flx (sTy s) q _ L X). unfold flx in Y. destruct (sTy s); auto. destruct (nth fa netUp false); auto.
Qed.

(** sum of the changes, in the order of the loop *)
Definition accum (q : list R) (ss : list subface) (o : list R) : list R := fold_left (fun o s => vadd o (chg q s)) ss o.
Lemma accum_len q ss o : length q = nQt d -> length o = nQt d -> (forall s, In s ss -> (sAd s < length dofs)%nat) -> length (accum q ss o) = nQt d.
Proof.
  revert o. induction ss as [|s ss IH]; intros o Lq Lo A; cbn; auto. apply IH; auto; [|intros; apply A; now right]. apply len_vadd; auto. apply len_chg; auto. apply A. now left.
Qed.
Lemma vadd_assoc a b c n : length a = n -> length b = n -> length c = n -> vadd (vadd a b) c = vadd a (vadd b c).
Proof.
  intros A B C. apply (vec_ext n); [repeat apply len_vadd; auto|repeat apply len_vadd; auto|]. intros i _. rewrite !nth_vadd; try congruence; try (rewrite (len_vadd _ _ n); auto). ring.
Qed.
Lemma vadd_zeros a n : length a = n -> vadd a (zeros n) = a.
Proof. intros A. apply (vec_ext n); [apply len_vadd; auto; apply len_zeros|auto|]. intros i _. rewrite nth_vadd, nth_zeros by (rewrite len_zeros; auto). ring. Qed.
Lemma accum_sum q ss : forall o, length q = nQt d -> length o = nQt d -> (forall s, In s ss -> (sAd s < length dofs)%nat) -> accum q ss o = vadd o (vsum (nQt d) (map (chg q) ss)).
Proof.
  induction ss as [|s ss IH]; intros o Lq Lo A; cbn [accum map vsum fold_right fold_left].
  - symmetry. apply vadd_zeros. auto.
  - assert (LC : length (chg q s) = nQt d) by (apply len_chg; auto; apply A; now left).
    assert (A' : forall s, In s ss -> (sAd s < length dofs)%nat) by (intros; apply A; now right).
    change (accum q ss (vadd o (chg q s)) = vadd o (vadd (chg q s) (vsum (nQt d) (map (chg q) ss)))). rewrite IH by (auto; apply len_vadd; auto). apply vadd_assoc with (nQt d); auto.
    apply len_vsum. intros a Ha. apply in_map_iff in Ha. destruct Ha as (s' & <- & Hs). apply len_chg; auto.
Qed.

Lemma subCell_ok i sc q : nth_error g i = Some sc -> nth_error dofs i = Some q -> subCell d nf nt (fst mem) (snd mem) dt (adTable g) (tyTable e g) netUp dofs i = Ok (vadd q (vsum (nQt d) (map (chg q) sc))).
Proof.
  intros Gi Qi. assert (Lq : length q = nQt d) by (apply LD; apply nth_error_In with i; auto). destruct (G sc) as (Ls & Vs); [apply nth_error_In with i; auto|]. fold nf in Ls.
  rewrite <- accum_sum; auto; [|intros s Hs; apply Vs; auto].
  unfold subCell, adTable, tyTable. rewrite (rd_some _ _ _ Qi). rewrite !(rd_some _ i _ (map_nth_error _ _ _ Gi)). cbn [bind].
  match goal with |- for_ 0 nf ?b q = _ => destruct (for_ok (fun k o => o = accum q (firstn k sc) q) 0 nf b q) as (o & E & O) end; [lia|reflexivity| |].
  - intros k o Hk O. destruct (nth_error sc k) as [s|] eqn:Es; [|apply nth_error_None in Es; lia]. destruct (Vs s (nth_error_In _ _ Es)) as (As & Ts).
    assert (Lo : length o = nQt d) by (rewrite O; apply accum_len; auto; intros s' H'; apply Vs; rewrite <- (firstn_skipn k sc); apply in_or_app; now left).
    rewrite (rd_some _ k _ (map_nth_error sAd _ _ Es)), (rd_some _ k _ (map_nth_error _ _ _ Es)). cbn [bind]. rewrite (rd_ok _ _ []) by auto. cbn [bind].
    assert (Lqa := dof_len _ As). assert (STEP : accum q (firstn (S k) sc) q = vadd o (chg q s)) by (rewrite (firstn_S_snoc _ _ _ Es); unfold accum; rewrite fold_left_app; rewrite O; reflexivity).
    rewrite STEP. clear STEP O. assert (HN := nf_nt).
    assert (FLX : chg q s = flx (sTy s) q (nth (sAd s) dofs []) -> exists s',
      (let '(lft, id0, id1) := llfIds nf nt (code e (sTy s)) in c0 <- rd (fst mem) id0;; c1 <- rd (fst mem) id1;; v <- rd (snd mem) (Nat.max id0 id1);;
       addFlux d dt c0 c1 v (if lft then dt else - dt) q (nth (sAd s) dofs []) o) = Ok s' /\ s' = vadd o (chg q s)).
    { intros ->. rewrite llfIds_ok by auto. assert (X := type_ok _ Ts). destruct (ids (sTy s)) as ((lft & id0) & id1) eqn:EI. destruct X as (C0 & C1 & v & E0 & E1 & Ev & S0 & S1 & VV).
      rewrite (rd_some _ _ _ E0), (rd_some _ _ _ E1), (rd_some _ _ _ Ev). cbn [bind]. assert (Y := contrib _ q (nth (sAd s) dofs []) o C0 C1 v Ts Lq Lqa Lo S0 S1 VV). rewrite EI in Y. cbn [fst] in Y. rewrite Y. eexists. split; reflexivity. }
    assert (INN : chg q s = flx (sTy s) q (nth (sAd s) dofs []) -> (nf - 1 <? code e (sTy s))%nat = true -> exists s',
       (flux <- (if (nf - 1 <? code e (sTy s))%nat then Ok true else nu <- rd netUp (code e (sTy s) mod nf);; Ok (negb nu));;
        if flux then let '(lft, id0, id1) := llfIds nf nt (code e (sTy s)) in c0 <- rd (fst mem) id0;; c1 <- rd (fst mem) id1;; v <- rd (snd mem) (Nat.max id0 id1);;
          addFlux d dt c0 c1 v (if lft then dt else - dt) q (nth (sAd s) dofs []) o else addNet d (nth (sAd s) dofs []) o) = Ok s' /\ s' = vadd o (chg q s)) by (intros EC ->; cbn [bind]; auto).
    destruct (sTy s) as [fa|fa|p|p] eqn:ET.
    + cbn [code validType] in *. fold nf in Ts. replace (nf - 1 <? fa)%nat with false by (symmetry; apply Nat.ltb_ge; lia). rewrite Nat.mod_small by lia. rewrite (rd_ok _ _ false) by lia. cbn [bind].
      destruct (nth fa netUp false) eqn:EN; cbn [negb].
      * rewrite addNet_ok by auto. eexists. split; [reflexivity|]. unfold chg, change. rewrite ET, EN. reflexivity.
      * apply FLX. unfold chg, change. rewrite ET, EN. reflexivity.
    + apply INN; [unfold chg, change; rewrite ET; reflexivity|]. cbn [code validType] in *. fold nf in Ts |- *. apply Nat.ltb_lt. lia.
    + apply INN; [unfold chg, change; rewrite ET; reflexivity|]. cbn [code]. fold nf. apply Nat.ltb_lt. lia.
    + apply INN; [unfold chg, change; rewrite ET; reflexivity|]. cbn [code]. fold nf. apply Nat.ltb_lt. lia.
  - rewrite E. f_equal. rewrite O, <- Ls, firstn_all. reflexivity.
Qed.

Lemma tsSc_ok out : length g = nsc -> (nsc <= length dofs)%nat -> length out = nsc -> exists out', tsSc d nf nt (fst mem) (snd mem) dt (adTable g) (tyTable e g) netUp nsc dofs out = Ok out' /\ length out' = nsc /\
  forall i sc q, nth_error g i = Some sc -> nth_error dofs i = Some q -> nth_error out' i = Some (vadd q (vsum (nQt d) (map (chg q) sc))).
Proof.
  intros Lg Ld Lo. unfold tsSc.
  match goal with |- exists _, for_ 0 nsc ?b out = _ /\ _ => destruct (for_ok (fun k o => length o = nsc /\ forall i sc q, (i < k)%nat -> nth_error g i = Some sc -> nth_error dofs i = Some q -> nth_error o i = Some (vadd q (vsum (nQt d) (map (chg q) sc)))) 0 nsc b out) as (o & E & L & O) end.
  - lia.
  - split; auto. intros; lia.
  - intros k o Hk (L & H). destruct (nth_error g k) as [sc|] eqn:Eg; [|apply nth_error_None in Eg; lia]. destruct (nth_error dofs k) as [q|] eqn:Eq; [|apply nth_error_None in Eq; lia].
    rewrite (subCell_ok k sc q Eg Eq). cbn [bind]. rewrite wr_ok by lia. eexists. split; [reflexivity|]. split; [rewrite length_upd; auto|]. intros i sc' q' Hi Gi Qi.
    destruct (Nat.eq_dec i k) as [->|N]; [|rewrite nth_error_upd_ne by auto; apply H; auto; lia]. rewrite nth_error_upd_eq by lia. congruence.
  - exists o. split; [auto|]. split; [auto|]. intros i sc q Gi Qi. apply O; auto. rewrite <- Lg. apply nth_error_Some. congruence.
Qed.
End Step.
