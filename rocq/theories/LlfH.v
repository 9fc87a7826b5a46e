(** Proofs about the energy of the sub-cells, uniform states and boundary conditions. *)
From Coq Require Import List Arith Bool Reals Lra Lia Permutation.
From Verif Require Import Util ElSpec ElWave ElMid ElFace Llf LlfSpec LlfV LlfW LlfE LlfG.
Import ListNotations.
Open Scope R_scope.

(** ** Closed cells *)
(** the flux is linear in the normal *)
Lemma flux_lin d m q i : dim d -> exists c : nat -> R, forall n, nth i (flux d m n q) 0 = sum d (fun j => c j * n j).
Proof.
  intros D. exists (fun j => nth i (flux d m (delta j) q) 0). intros n.
  destruct D as [-> | ->]; unfold flux, mk, mkT, pairs; cbn [Nat.eqb map app seq fst snd];
    (do 10 (try destruct i as [|i])); cbn [nth]; unfold dot, traction, strain, sum, delta; cbn [seq fold_left Nat.eqb]; try (destruct i); unfold Rdiv; ring.
Qed.
Lemma closed_flux {A} d m q (ar : A -> R) (no : A -> nat -> R) l : dim d -> (forall i, (i < d)%nat -> rsum (map (fun s => ar s * no s i) l) = 0) ->
  vsum (nQt d) (map (fun s => vscale (ar s) (flux d m (no s) q)) l) = zeros (nQt d).
Proof.
  intros D C. assert (L : forall a, In a (map (fun s => vscale (ar s) (flux d m (no s) q)) l) -> length a = nQt d) by (intros a Ha; apply in_map_iff in Ha; destruct Ha as (s & <- & _); len1; auto).
  apply (vec_ext (nQt d)); [apply len_vsum; auto|apply len_zeros|]. intros i _. rewrite nth_vsum, nth_zeros, map_map by auto. destruct (flux_lin d m q i D) as (c & H).
  rewrite (rsum_ext _ (fun s => sum d (fun j => c j * (ar s * no s j)))) by (intros s _; rewrite nth_vscale, H, <- sum_scal; apply sum_ext; intros; ring).
  assert (X : forall n, rsum (map (fun s => sum n (fun j => c j * (ar s * no s j))) l) = sum n (fun j => c j * rsum (map (fun s => ar s * no s j) l))).
  { induction n as [|n IH]; [rewrite sum_0; apply rsum_zero; intros; apply sum_0|]. rewrite sum_S, <- IH, <- rsum_scal, <- rsum_add. apply rsum_ext. intros. apply sum_S. }
  rewrite X. apply sum_zero. intros j Hj. rewrite C by auto. ring.
Qed.
Lemma energy_vsum d m x l : dim d -> (forall a, In a l -> length a = nQt d) -> energy2 d m x (vsum (nQt d) l) = rsum (map (fun a => energy2 d m x a) l).
Proof.
  intros D. unfold rsum. induction l as [|a l IH]; intros H; cbn [vsum fold_right map].
  - rewrite energy_sym by auto. apply energy_zeros. auto.
  - fold (vsum (nQt d) l). rewrite energy_add_r, IH; auto.
    + intros; apply H; now right.
    + rewrite len_vsum by (intros; apply H; now right). apply H; now left.
Qed.

(** ** Energy of a cell *)
Lemma cell_energy {A} d m q lb (ar : A -> R) (no : A -> nat -> R) (fl : A -> list R) l : dim d -> solid m -> length q = nQt d -> (forall s, In s l -> length (fl s) = nQt d) -> (forall s, In s l -> 0 <= ar s) ->
  (forall i, (i < d)%nat -> rsum (map (fun s => ar s * no s i) l) = 0) -> 0 <= lb -> lb * speedP m * rsum (map ar l) <= 1 ->
  let o := vadd q (vsum (nQt d) (map (fun s => vscale (- (lb * ar s)) (fl s)) l)) in energy2 d m o o <= energy2 d m q q + lb * rsum (map (fun s => ar s * gain d m (no s) q (fl s)) l).
Proof.
  intros D SM Lq Lf AP C L0 CFL o. destruct (solid_cp m SM) as (CP & _). set (s := speedP m) in *.
  set (gv := fun x => vsub (fl x) (flux d m (no x) q)). set (S := vsum (nQt d) (map (fun x => vscale (ar x) (gv x)) l)).
  assert (LG : forall x, In x l -> length (gv x) = nQt d) by (intros x Hx; apply len_vsub; [auto|apply len_flux; auto]).
  assert (LGL : forall a, In a (map (fun x => vscale (ar x) (gv x)) l) -> length a = nQt d) by (intros a Ha; apply in_map_iff in Ha; destruct Ha as (x & <- & Hx); rewrite len_vscale; auto).
  assert (LFL : forall a, In a (map (fun x => vscale (- (lb * ar x)) (fl x)) l) -> length a = nQt d) by (intros a Ha; apply in_map_iff in Ha; destruct Ha as (x & <- & Hx); rewrite len_vscale; auto).
  assert (LXL : forall a, In a (map (fun x => vscale (ar x) (flux d m (no x) q)) l) -> length a = nQt d) by (intros a Ha; apply in_map_iff in Ha; destruct Ha as (x & <- & Hx); rewrite len_vscale; apply len_flux; auto).
  assert (LS : length S = nQt d) by (apply len_vsum; auto).
  assert (CF := closed_flux d m q ar no l D C).
  assert (O : o = vadd q (vscale (- lb) S)).
  { unfold o. f_equal. apply (vec_ext (nQt d)); [apply len_vsum; auto|rewrite len_vscale; auto|]. intros i _. rewrite nth_vscale. unfold S. rewrite !nth_vsum by auto. rewrite !map_map.
    assert (Z : rsum (map (fun x => nth i (vscale (ar x) (flux d m (no x) q)) 0) l) = 0) by (rewrite <- (map_map (fun x => vscale (ar x) (flux d m (no x) q)) (fun a => nth i a 0)), <- (nth_vsum (nQt d)), CF by auto; apply nth_zeros).
    rewrite (rsum_ext (fun x => nth i (vscale (- (lb * ar x)) (fl x)) 0) (fun x => - lb * (nth i (vscale (ar x) (gv x)) 0 + nth i (vscale (ar x) (flux d m (no x) q)) 0))).
    - rewrite rsum_scal, rsum_add, Z. ring.
    - intros x Hx. rewrite !nth_vscale. unfold gv. rewrite nth_vsub by (rewrite len_flux; auto). ring. }
  assert (EQS : energy2 d m q S = rsum (map (fun x => ar x * loss d m (no x) q (fl x)) l)).
  { unfold S. rewrite energy_vsum, map_map by auto.
    assert (Z : rsum (map (fun x => energy2 d m q (vscale (ar x) (flux d m (no x) q))) l) = 0) by (rewrite <- (map_map (fun x => vscale (ar x) (flux d m (no x) q)) (fun a => energy2 d m q a)), <- energy_vsum, CF, energy_sym by auto; apply energy_zeros; auto).
    rewrite (rsum_ext _ (fun x => ar x * loss d m (no x) q (fl x) + - (1 / 2) * energy2 d m q (vscale (ar x) (flux d m (no x) q)))).
    - rewrite rsum_add, rsum_scal, Z. ring.
    - intros x Hx. rewrite !energy_scale_r by auto. unfold gv, loss. rewrite energy_sub_r by (rewrite ?len_flux; auto). field. }
  assert (P : 0 <= energy2 d m S S) by (apply energy_pos; auto).
  assert (GS : lb * s * energy2 d m S S <= rsum (map (fun x => ar x * energy2 d m (gv x) (gv x)) l)).
  { set (c := vscale (lb * s) S). assert (LC : length c = nQt d) by (unfold c; rewrite len_vscale; auto).
    assert (Q : 0 <= rsum (map (fun x => ar x * energy2 d m (vsub (gv x) c) (vsub (gv x) c)) l)).
    { rewrite <- (rsum_zero (fun _ : A => 0) l) by auto. apply rsum_le. intros x Hx. apply Rmult_le_pos; auto. apply energy_pos; auto. apply len_vsub; auto. }
    rewrite (rsum_ext _ (fun x => ar x * energy2 d m (gv x) (gv x) + (- 2 * energy2 d m c (vscale (ar x) (gv x)) + energy2 d m c c * ar x))) in Q.
    2:{ intros x Hx. rewrite energy_sub, !energy_sub_r, energy_scale_r by (auto; rewrite LG; auto). rewrite (energy_sym d m (gv x) c D). ring. }
    rewrite !rsum_add, !rsum_scal in Q. rewrite <- (map_map (fun x => vscale (ar x) (gv x)) (fun a => energy2 d m c a)), <- energy_vsum in Q by auto. fold S in Q. unfold c in Q. rewrite energy_scale_r, !energy_scale in Q by auto.
    set (es := energy2 d m S S) in *. set (ra := rsum (map ar l)) in *. assert (LS0 : 0 <= lb * s * es) by (apply Rmult_le_pos; auto; apply Rmult_le_pos; lra).
    assert (lb * s * (lb * s * es) * ra <= lb * s * es).
    { replace (lb * s * (lb * s * es) * ra) with (lb * s * ra * (lb * s * es)) by ring. rewrite <- (Rmult_1_l (lb * s * es)) at 2. apply Rmult_le_compat_r; auto. }
    lra. }
  rewrite O. rewrite energy_add, !energy_add_r, !energy_scale, !energy_scale_r by (auto; rewrite ?len_vscale; congruence). rewrite (energy_sym d m S q D), EQS.
  assert (GA : rsum (map (fun x => ar x * gain d m (no x) q (fl x)) l) = / s * rsum (map (fun x => ar x * energy2 d m (gv x) (gv x)) l) + - 2 * rsum (map (fun x => ar x * loss d m (no x) q (fl x)) l)).
  { rewrite <- !rsum_scal, <- rsum_add. apply rsum_ext. intros x Hx. unfold gain. fold (gv x) s. unfold Rdiv. ring. }
  rewrite GA. set (rl := rsum (map (fun x => ar x * loss d m (no x) q (fl x)) l)) in *. set (rg := rsum (map (fun x => ar x * energy2 d m (gv x) (gv x)) l)) in *. set (es := energy2 d m S S) in *.
  assert (lb * (lb * es) <= lb * (/ s * rg)).
  { apply Rmult_le_compat_l; auto. apply Rmult_le_reg_l with s; auto. rewrite <- (Rmult_assoc s (/ s)), Rinv_r, Rmult_1_l by lra. lra. }
  lra.
Qed.

Lemma plane_in e t : validType e t -> (sfPlane t < nPlanes e)%nat. Proof. unfold nPlanes, nFaces. destruct t; cbn; unfold nPlanes, nFaces; lia. Qed.

Lemma plane_unit d mats e p : dim d -> wfElem d mats e -> (p < nPlanes e)%nat -> dot d (nrm (plane e p)) (nrm (plane e p)) = 1.
Proof.
  intros D W H. assert (V : validFrame d (plane e p)) by (apply W; apply nth_In; rewrite app_length; exact H). unfold validFrame, nrm in *. destruct D as [-> | ->]; cbn [Nat.eqb] in V.
  - unfold unit2 in V. cbv [dot sum seq fold_left co3]. lra.
  - apply ortho_unit3 in V. exact V.
Qed.
Lemma turn_unit d b n : dot d n n = 1 -> dot d (turn b n) (turn b n) = 1. Proof. intros H. destruct b; cbn; auto. rewrite dot_neg2. auto. Qed.
Lemma normal_unit d mats e t : dim d -> wfElem d mats e -> validType e t -> dot d (sfNormal e t) (sfNormal e t) = 1.
Proof.
  intros D W V. assert (P := plane_in e t V). destruct t; cbn [sfNormal sfPlane] in *; rewrite ?dot_neg2; apply turn_unit, plane_unit with mats; auto.
Qed.

Section Element.
Variables (d nsf nsc : nat) (mats : list material) (e : elem) (dt : R).
Hypothesis D : dim d.
Hypothesis W : wfElem d mats e.
Hypothesis N0 : (0 < nsc)%nat.
Variables (g : list (list subface)) (dofs : list (list R)).
Hypothesis G : wfGrid e (length dofs) g.
Hypothesis LD : forall q, In q dofs -> length q = nQt d.
Hypothesis Lg : length g = nsc.
Hypothesis Ld : (nsc <= length dofs)%nat.
Notation chg' := (change d mats e nsf nsc dt (fun _ => false) dofs).

Lemma change_flux q s : chg' q s = vscale (- (dt / scVol nsc e * sfArea nsf e (sTy s))) (llf d (matEl mats e) (matAd mats e (sTy s)) (sfNormal e (sTy s)) q (nth (sAd s) dofs [])).
Proof. unfold change. destruct (sTy s); reflexivity. Qed.

(** uniform states *)
Lemma uniform q sc : (forall i, (i < length dofs)%nat -> nth i dofs [] = q) -> length q = nQt d -> (forall fa, (fa < nFaces e)%nat -> matAd mats e (Outer fa) = matEl mats e) -> In sc g -> closed d nsf e sc ->
  vadd q (vsum (nQt d) (map (chg' q) sc)) = q.
Proof.
  intros U Lq MA Gs CL. destruct (G sc Gs) as (_ & V). assert (MT : forall t, validType e t -> matAd mats e t = matEl mats e) by (intros [a|a|p|p] H; cbn in *; auto; apply (MA a H)).
  assert (X : vsum (nQt d) (map (chg' q) sc) = zeros (nQt d)); [|rewrite X; apply vadd_zeros; auto].
  rewrite (map_ext_in (chg' q) (fun s => vscale (- (dt / scVol nsc e) * sfArea nsf e (sTy s)) (flux d (matEl mats e) (sfNormal e (sTy s)) q))).
  - apply closed_flux; auto. intros i Hi. rewrite (rsum_ext _ (fun s => - (dt / scVol nsc e) * (sfArea nsf e (sTy s) * sfNormal e (sTy s) i))) by (intros; ring). rewrite rsum_scal, CL by auto. ring.
  - intros s Hs. destruct (V s Hs) as (A & T). rewrite change_flux, MT, U, llf_same by auto. f_equal. ring.
Qed.
End Element.

(** ** Energy of a mesh *)
Lemma rsum_flat {A B} (F : B -> R) (h : A -> list B) l : rsum (map F (flat_map h l)) = rsum (map (fun x => rsum (map F (h x))) l).
Proof. induction l as [|a l IH]; [reflexivity|]. cbn [flat_map map]. rewrite map_app, rsum_app, IH. reflexivity. Qed.

(** any pairing of sub-faces: what does not grow in pairs, does not grow in total *)
Lemma pairs_le (g : list (list subface)) F (pr : nat * nat -> nat * nat) : (forall p s, sfAt g p = Some s -> pr (pr p) = p /\ exists s', sfAt g (pr p) = Some s' /\ F (fst p) s + F (fst (pr p)) s' <= 0) ->
  rsum (map (fun i => rsum (map (F i) (nth i g []))) (seq 0 (length g))) <= 0.
Proof.
  intros P. rewrite (rsum_ext _ (fun i => rsum (map (F i) (filter (fun _ => true) (nth i g []))))) by (intros; rewrite filter_true; auto). rewrite rsum_pos.
  rewrite (filter_ext_in _ (fun _ => true)) by (intros p Hp; apply in_pos in Hp; destruct Hp as (s & ->); auto). rewrite filter_true. set (P0 := pos g).
  assert (I0 : forall p, In p P0 <-> exists s, sfAt g p = Some s) by (intros; apply in_pos).
  assert (PP : Permutation (map pr P0) P0).
  { apply NoDup_Permutation.
    - apply (NoDup_map_inv pr). rewrite map_map. rewrite (map_ext_in (fun x => pr (pr x)) (fun x => x)); [rewrite map_id; apply nodup_pos|]. intros p Hp. apply I0 in Hp. destruct Hp as (s & E). apply (P p s); auto.
    - apply nodup_pos.
    - intros p. rewrite in_map_iff. split.
      + intros (p' & <- & H'). apply I0 in H'. destruct H' as (s & E). destruct (P p' s E) as (_ & s' & E' & _). apply I0. eauto.
      + intros H'. apply I0 in H'. destruct H' as (s & E). destruct (P p s E) as (X & s' & E' & _). exists (pr p). split; auto. apply I0. eauto. }
  assert (S2 : rsum (map (valAt g F) P0) = rsum (map (fun p => valAt g F (pr p)) P0)) by (rewrite <- (map_map pr (valAt g F)); apply rsum_perm; symmetry; apply Permutation_map; exact PP).
  assert (T : rsum (map (fun p => valAt g F p + valAt g F (pr p)) P0) <= 0).
  { rewrite <- (rsum_zero (fun _ => 0) P0) by auto. apply rsum_le. intros p Hp. apply I0 in Hp. destruct Hp as (s & E). destruct (P p s E) as (X & s' & E' & L). unfold valAt. rewrite E, E'. exact L. }
  rewrite rsum_add, <- S2 in T. lra.
Qed.

Lemma mesh_energy d nsf nsc mats m dt M : dim d -> (0 < nsc)%nat -> (0 < nsf)%nat -> 0 <= dt -> solid m -> (forall x, In x mats -> x = m) ->
  (forall x, In x M -> wfElem d mats (pE x) /\ wfGrid (pE x) (length (pQ x)) (pG x) /\ wfDofs d nsc (pG x) (pQ x) /\ (forall f, In f (eFa (pE x) ++ eAdd (pE x)) -> 0 <= fAr f) /\
    forall sc, In sc (pG x) -> closed d nsf (pE x) sc /\ dt * speedP m * rsum (map (fun s => sfArea nsf (pE x) (sTy s)) sc) <= scVol nsc (pE x)) -> joined d nsf M ->
  rsum (map (fun x => scVol nsc (pE x) * rsum (map (fun y => let o := vadd (fst y) (vsum (nQt d) (map (change d mats (pE x) nsf nsc dt (fun _ => false) (pQ x) (fst y)) (snd y))) in energy2 d m o o) (combine (pQ x) (pG x)))) M) <=
  rsum (map (fun x => scVol nsc (pE x) * rsum (map (fun y => energy2 d m (fst y) (fst y)) (combine (pQ x) (pG x)))) M).
Proof.
  intros D N0 S0 DT SM MM H (pr & P). cbv zeta in P.
  set (Fs := fun (x : part) (q : list R) s => sfArea nsf (pE x) (sTy s) * gain d m (sfNormal (pE x) (sTy s)) q (llf d m m (sfNormal (pE x) (sTy s)) q (nth (sAd s) (pQ x) []))).
  assert (MT : forall x t, In x M -> validType (pE x) t -> matEl mats (pE x) = m /\ matAd mats (pE x) t = m).
  { intros x t Hx V. destruct (H x Hx) as ((LA & I1 & I2 & _) & _). assert (ME : matEl mats (pE x) = m) by (apply MM, nth_In; auto). split; auto.
    assert (X : forall fa, (fa < nFaces (pE x))%nat -> match nth fa (eAdj (pE x)) None with Some a => nth a mats noMat | None => matEl mats (pE x) end = m).
    { intros fa Hf. destruct (nth fa (eAdj (pE x)) None) as [a|] eqn:E; auto. apply MM, nth_In, I2. rewrite <- E. apply nth_In. lia. }
    destruct t; cbn in *; auto. }
  assert (AR : forall x t, In x M -> validType (pE x) t -> 0 <= sfArea nsf (pE x) t).
  { intros x t Hx V. destruct (H x Hx) as (_ & _ & _ & AP & _). unfold sfArea. apply Rmult_le_pos; [apply AP, nth_In; rewrite app_length; apply plane_in; auto|left; apply Rinv_0_lt_compat, lt_0_INR; auto]. }
  assert (CI : forall x q sc, In (x, (q, sc)) (cells M) -> In x M /\ In q (pQ x) /\ In sc (pG x)).
  { intros x q sc I. apply in_flat_map in I. destruct I as (x' & Hx & I). apply in_map_iff in I. destruct I as (y & E & I). injection E as -> ->. split; auto. split; [apply in_combine_l in I|apply in_combine_r in I]; auto. }
  assert (NET : rsum (map (fun c => rsum (map (Fs (fst c) (fst (snd c))) (snd (snd c)))) (cells M)) <= 0).
  { set (c0 := ({| pE := {| eId := 0; eAdj := []; eFa := []; eAdd := []; eVol := 0 |}; pG := []; pQ := [] |}, (@nil R, @nil subface))).
    set (g := map (fun c => snd (snd c)) (cells M)). set (F := fun i s => let c := nth i (cells M) c0 in Fs (fst c) (fst (snd c)) s).
    assert (SA : forall p s, sfAt g p = Some s -> exists x q sc, nth_error (cells M) (fst p) = Some (x, (q, sc)) /\ nth_error sc (snd p) = Some s).
    { intros p s E. unfold sfAt, g in E. rewrite nth_error_map in E. destruct (nth_error (cells M) (fst p)) as [(x & q & sc)|] eqn:C; [|discriminate]. cbn in E. eauto. }
    rewrite (map_seq_nth _ c0). rewrite <- (map_length (fun c => snd (snd c)) (cells M)). fold g.
    rewrite (rsum_ext _ (fun i => rsum (map (F i) (nth i g [])))).
    2:{ intros i _. unfold F, g. change (@nil subface) with (snd (snd c0)) at 1. rewrite (map_nth (fun c : part * (list R * list subface) => snd (snd c))). reflexivity. }
    apply (pairs_le g F pr). intros p s E. destruct (SA p s E) as (x & q & sc & C & K). destruct (P p x q s) as (PP & Q); [eauto|]. split; auto.
    destruct (CI x q sc (nth_error_In _ _ C)) as (Hx & Hq & Hs). destruct (H x Hx) as (W & G & (_ & _ & LD) & _). destruct (G sc Hs) as (_ & V). destruct (V s (nth_error_In _ _ K)) as (VA & VT).
    assert (U := normal_unit d mats (pE x) (sTy s) D W VT). assert (A0 := AR x _ Hx VT).
    assert (FE : F (fst p) s = Fs x q s) by (unfold F; rewrite (nth_error_nth _ _ c0 C); reflexivity).
    destruct Q as [(EP & Z)|(x' & q' & s' & (sc' & C' & K') & B & AE & NO)].
    - exists s. rewrite EP. split; auto. rewrite FE. unfold Fs. rewrite Z. assert (GO := gain_out d m _ q D U SM (LD q Hq)). nra.
    - exists s'. split; [unfold sfAt, g; rewrite nth_error_map, C'; cbn; auto|]. destruct (P (pr p) x' q' s') as (_ & Q'); [eauto|]. rewrite PP in Q'.
      destruct (CI x' q' sc' (nth_error_In _ _ C')) as (Hx' & Hq' & Hs'). destruct (H x' Hx') as (_ & _ & (_ & _ & LD') & _).
      assert (FE' : F (fst (pr p)) s' = Fs x' q' s') by (unfold F; rewrite (nth_error_nth _ _ c0 C'); reflexivity). rewrite FE, FE'. unfold Fs. rewrite AE, B.
      assert (BQ : nth (sAd s') (pQ x') [] = q).
      { destruct Q' as [(EP & Z)|(x2 & q2 & s2 & (sc2 & C2 & K2) & B2 & _)]; [|rewrite C in C2; injection C2 as -> -> ->; auto].
        rewrite <- EP in C', K'. rewrite C in C'. injection C' as -> -> ->. rewrite K in K'. injection K' as ->. congruence. }
      rewrite BQ. set (n := sfNormal (pE x) (sTy s)) in *. rewrite (llf_ext d m m (sfNormal (pE x') (sTy s')) (neg n)) by auto.
      assert (GX : forall u f, gain d m (sfNormal (pE x') (sTy s')) u f = gain d m (neg n) u f) by (intros; unfold gain, loss; rewrite (flux_ext d m (sfNormal (pE x') (sTy s')) (neg n) u) by auto; reflexivity).
      rewrite GX. assert (GP := gain_pair d m n q q' D U SM (LD q Hq) (LD' q' Hq')). nra. }
  match goal with |- ?l <= ?r => assert (CE : l <= r + dt * rsum (map (fun c => rsum (map (Fs (fst c) (fst (snd c))) (snd (snd c)))) (cells M))) end; [|nra].
  unfold cells. rewrite rsum_flat, <- rsum_scal, <- rsum_add. apply rsum_le. intros x Hx. destruct (H x Hx) as (W & G & (LG & LL & LD) & AP & CL).
  assert (V0 : 0 < scVol nsc (pE x)) by (unfold scVol; apply Rmult_lt_0_compat; [apply W|apply Rinv_0_lt_compat, lt_0_INR; auto]). rewrite map_map. cbn [fst snd].
  rewrite <- !rsum_scal, <- rsum_add. apply rsum_le. intros (q & sc) IN. cbn [fst snd]. cbv zeta. assert (Lq : length q = nQt d) by (apply LD; apply in_combine_l in IN; auto). assert (Gs : In sc (pG x)) by (apply in_combine_r in IN; auto). destruct (G sc Gs) as (_ & V). destruct (CL sc Gs) as (C1 & C2).
  assert (CX := cell_energy d m q (dt / scVol nsc (pE x)) (fun s => sfArea nsf (pE x) (sTy s)) (fun s => sfNormal (pE x) (sTy s)) (fun s => llf d m m (sfNormal (pE x) (sTy s)) q (nth (sAd s) (pQ x) [])) sc D SM Lq). cbv zeta in CX.
  rewrite (map_ext_in (change d mats (pE x) nsf nsc dt (fun _ => false) (pQ x) q) (fun s => vscale (- (dt / scVol nsc (pE x) * sfArea nsf (pE x) (sTy s))) (llf d m m (sfNormal (pE x) (sTy s)) q (nth (sAd s) (pQ x) [])))).
  2:{ intros s Hs. destruct (V s Hs) as (_ & VT). destruct (MT x _ Hx VT) as (E1 & E2). rewrite change_flux, E1, E2. reflexivity. }
  assert (CY := Rmult_le_compat_l (scVol nsc (pE x)) _ _ (Rlt_le _ _ V0) (CX ltac:(intros s Hs; apply len_llf; auto; apply LD, nth_In, V; auto) ltac:(intros s Hs; apply AR; auto; apply V; auto) C1
    ltac:(apply Rmult_le_pos; auto; left; apply Rinv_0_lt_compat; auto)
    ltac:(apply Rmult_le_reg_r with (scVol nsc (pE x)); auto; replace (dt / scVol nsc (pE x) * speedP m * rsum (map (fun s => sfArea nsf (pE x) (sTy s)) sc) * scVol nsc (pE x)) with (dt * speedP m * rsum (map (fun s => sfArea nsf (pE x) (sTy s)) sc)) by (field; lra); lra))).
  eapply Rle_trans; [exact CY|]. right. unfold Fs. cbn [fst snd]. field. lra.
Qed.

(** ** Boundary conditions *)
Definition ghost (nsf nsc fa sf : nat) : nat := (nsc + nsf * fa + sf)%nat.
(** state of ghost sub-cell [sf] of face [fa] *)
Definition ghostState (d : nat) (t : bnd) (own old : list R) : list R := match t with Inner => old | FreeSurface => own | Outflow => zeros (nQt d) end.

Lemma bnd_face d nsf nsc fa t tbl (src : nat -> nat) dofs : dim d -> (nsc + nsf * (fa + 1) <= length dofs)%nat -> (forall sf, (sf < nsf)%nat -> (src sf < nsc)%nat /\ exists row, nth_error tbl (ghost nsf nsc fa sf) = Some row /\ nth_error row 0 = Some (src sf)) ->
  exists dofs', (match t with
    | Inner => Ok dofs
    | FreeSurface => for_ 0 nsf (fun sf dofs => ads <- rd tbl (nsc + nsf * fa + sf);; sc <- rd ads 0;; q <- rd dofs sc;; wr dofs (nsc + nsf * fa + sf) q) dofs
    | Outflow => for_ 0 nsf (fun sf dofs => wr dofs (nsc + nsf * fa + sf) (repeat 0 (nQts d))) dofs
    end) = Ok dofs' /\ length dofs' = length dofs /\
    (forall sf, (sf < nsf)%nat -> nth_error dofs' (ghost nsf nsc fa sf) = Some (ghostState d t (nth (src sf) dofs []) (nth (ghost nsf nsc fa sf) dofs []))) /\
    forall i, (forall sf, (sf < nsf)%nat -> i <> ghost nsf nsc fa sf) -> nth_error dofs' i = nth_error dofs i.
Proof.
  intros D L T. destruct t.
  - exists dofs. split; [auto|]. split; [auto|]. split; auto. intros sf Hs. cbn. apply nth_error_nth'. unfold ghost. nia.
  - match goal with |- exists _, for_ 0 nsf ?b dofs = _ /\ _ => destruct (for_ok (fun k dofs' => length dofs' = length dofs /\ (forall sf, (sf < k)%nat -> nth_error dofs' (ghost nsf nsc fa sf) = Some (nth (src sf) dofs [])) /\
      forall i, (forall sf, (sf < k)%nat -> i <> ghost nsf nsc fa sf) -> nth_error dofs' i = nth_error dofs i) 0 nsf b dofs) as (dofs' & E & L1 & H1 & H2) end; [lia|split; [auto|split; [intros; lia|auto]]| |exists dofs'; auto].
    intros k ds Hk (L1 & H1 & H2). destruct (T k) as (SN & row & R0 & R1); [lia|]. unfold ghost in R0. rewrite (rd_some _ _ _ R0). cbn [bind]. rewrite (rd_some _ _ _ R1). cbn [bind].
    assert (SL : (src k < length dofs)%nat) by lia. assert (EQ : nth_error ds (src k) = Some (nth (src k) dofs [])) by (rewrite H2 by (intros; unfold ghost; lia); apply nth_error_nth'; auto).
    rewrite (rd_some _ _ _ EQ). cbn [bind]. rewrite wr_ok by nia. eexists. split; [reflexivity|]. split; [rewrite length_upd; auto|]. split.
    + intros sf Hs. destruct (Nat.eq_dec sf k) as [->|N]; [unfold ghost; rewrite nth_error_upd_eq by nia; auto|]. rewrite nth_error_upd_ne by (unfold ghost; lia). apply H1. lia.
    + intros i Hi. rewrite nth_error_upd_ne by (intros X; apply (Hi k); [lia|unfold ghost; lia]). apply H2. intros sf Hs. apply Hi. lia.
  - match goal with |- exists _, for_ 0 nsf ?b dofs = _ /\ _ => destruct (for_ok (fun k dofs' => length dofs' = length dofs /\ (forall sf, (sf < k)%nat -> nth_error dofs' (ghost nsf nsc fa sf) = Some (zeros (nQt d))) /\
      forall i, (forall sf, (sf < k)%nat -> i <> ghost nsf nsc fa sf) -> nth_error dofs' i = nth_error dofs i) 0 nsf b dofs) as (dofs' & E & L1 & H1 & H2) end; [lia|split; [auto|split; [intros; lia|auto]]| |exists dofs'; auto].
    intros k ds Hk (L1 & H1 & H2). rewrite wr_ok by nia. eexists. split; [reflexivity|]. split; [rewrite length_upd; auto|]. split.
    + intros sf Hs. destruct (Nat.eq_dec sf k) as [->|N]; [unfold ghost; rewrite nth_error_upd_eq by nia; unfold zeros; rewrite (nQts_eq d D); auto|]. rewrite nth_error_upd_ne by (unfold ghost; lia). apply H1. lia.
    + intros i Hi. rewrite nth_error_upd_ne by (intros X; apply (Hi k); [lia|unfold ghost; lia]). apply H2. intros sf Hs. apply Hi. lia.
Qed.

Lemma bnd_ok d nf nsf nsc tbl (src : nat -> nat -> nat) types dofs : dim d -> length types = nf -> length dofs = (nsc + nsf * nf)%nat ->
  (forall fa sf, (fa < nf)%nat -> (sf < nsf)%nat -> (src fa sf < nsc)%nat /\ exists row, nth_error tbl (ghost nsf nsc fa sf) = Some row /\ nth_error row 0 = Some (src fa sf)) ->
  exists dofs', applyBnd d nf nsf nsc tbl types dofs = Ok dofs' /\ length dofs' = length dofs /\ (forall i, (i < nsc)%nat -> nth_error dofs' i = nth_error dofs i) /\
    forall fa sf, (fa < nf)%nat -> (sf < nsf)%nat -> nth_error dofs' (ghost nsf nsc fa sf) = Some (ghostState d (nth fa types Inner) (nth (src fa sf) dofs []) (nth (ghost nsf nsc fa sf) dofs [])).
Proof.
  intros D LT LD T. unfold applyBnd.
  match goal with |- exists _, for_ 0 nf ?b dofs = _ /\ _ => destruct (for_ok (fun k dofs' => length dofs' = length dofs /\ (forall fa sf, (fa < k)%nat -> (sf < nsf)%nat -> nth_error dofs' (ghost nsf nsc fa sf) =
      Some (ghostState d (nth fa types Inner) (nth (src fa sf) dofs []) (nth (ghost nsf nsc fa sf) dofs []))) /\ forall i, (i < nsc \/ nsc + nsf * k <= i)%nat -> nth_error dofs' i = nth_error dofs i) 0 nf b dofs) as (dofs' & E & L1 & H1 & H2) end.
  - lia.
  - split; [auto|]. split; [intros; lia|auto].
  - intros fa ds Hf (L1 & H1 & H2). rewrite (rd_ok _ _ Inner) by lia. cbn [bind].
    destruct (bnd_face d nsf nsc fa (nth fa types Inner) tbl (src fa) ds D) as (ds' & E & L2 & K1 & K2); [rewrite L1, LD; nia|intros sf Hs; apply T; auto; lia|].
    exists ds'. split; [exact E|]. split; [congruence|]. split.
    + intros f sf Hlf Hs. destruct (Nat.eq_dec f fa) as [->|N].
      * rewrite K1 by auto. assert (P := T fa sf). destruct P as (SN & _); [lia|auto|]. f_equal. assert (E1 : nth (src fa sf) ds [] = nth (src fa sf) dofs []) by (apply nth_error_nth; rewrite H2 by lia; apply nth_error_nth'; lia).
        assert (E2 : nth (ghost nsf nsc fa sf) ds [] = nth (ghost nsf nsc fa sf) dofs []) by (apply nth_error_nth; rewrite H2 by (unfold ghost; lia); apply nth_error_nth'; unfold ghost; nia). rewrite E1, E2. reflexivity.
      * rewrite K2 by (intros sf' Hs'; unfold ghost; nia). apply H1; auto. lia.
    + intros i Hi. rewrite K2 by (intros sf' Hs'; unfold ghost; nia). apply H2. nia.
  - exists dofs'. split; [auto|]. split; [auto|]. split; [intros; apply H2; lia|]. intros; apply H1; auto.
Qed.

(** ** Faces between elements *)
Lemma face_opposite d mats e e' fa fa' q q' : dim d -> (fa < nFaces e)%nat -> (fa' < nFaces e')%nat -> nth fa (eFa e) noFace = nth fa' (eFa e') noFace -> nth fa (eAdj e) None = Some (eId e') -> nth fa' (eAdj e') None = Some (eId e) -> eId e <> eId e' ->
  length q = nQt d -> length q' = nQt d ->
  llf d (matEl mats e') (matAd mats e' (Outer fa')) (sfNormal e' (Outer fa')) q' q = vscale (- 1) (llf d (matEl mats e) (matAd mats e (Outer fa)) (sfNormal e (Outer fa)) q q').
Proof.
  intros D Hf Hf' EF A A' NE L L'. assert (P : plane e' fa' = plane e fa) by (unfold plane; rewrite !app_nth1 by auto; auto).
  cbn [matAd sfNormal]. rewrite A, A'. fold (matEl mats e) (matEl mats e'). rewrite <- llf_swap by auto. apply llf_ext; auto. intros i _. rewrite P. unfold outward. rewrite A, A'.
  destruct (Nat.ltb_spec (eId e) (eId e')), (Nat.ltb_spec (eId e') (eId e)); try lia; cbn; unfold neg; ring.
Qed.
