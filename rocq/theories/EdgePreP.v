(** Facts of EDGEpre's matrices. *)
From Coq Require Import List ZArith Reals Lra Lia Bool.
From Verif Require Import BasisSpec BasisInt BasisOrth Basis BasisModes BasisSpan BasisDer EdgePreM.
Import ListNotations.
Local Open Scope R_scope.

Definition nb (el : refEl) (n b : nat) : R := norm2 el (modeAt el n b).
Lemma norm2_pos el m : 0 < norm2 el m.
Proof. destruct m as ((p & q) & r). destruct el; cbn [norm2]; repeat apply Rmult_lt_0_compat; apply Rinv_0_lt_compat, lt_0_INR; lia. Qed.
Lemma nb_nz el n b : nb el n b <> 0. Proof. apply Rgt_not_eq, norm2_pos. Qed.
Lemma eqMode_eq a b : eqMode a b = true <-> a = b.
Proof.
  destruct a as ((i & j) & k), b as ((i' & j') & k'). cbn. rewrite !andb_true_iff, !Nat.eqb_eq. split; [intros ((-> & ->) & ->); reflexivity|intros [= -> -> ->]; auto].
Qed.
Lemma bas_orth el n a b : (a < nMds el n)%nat -> (b < nMds el n)%nat -> intEl el (fun x y z => bas el n a x y z * bas el n b x y z) (if (a =? b)%nat then nb el n a else 0).
Proof.
  intros Ha Hb. pose proof (orthogonal el (modeAt el n a) (modeAt el n b)) as H. rewrite !(nrm_ok el n) in H by now apply modeAt_ok.
  destruct (Nat.eqb_spec a b) as [->|N]; [now rewrite (proj2 (eqMode_eq _ _) eq_refl) in H|].
  destruct (eqMode (modeAt el n a) (modeAt el n b)) eqn:E; [|exact H]. apply eqMode_eq in E. elim N. now apply (modeAt_inj el n).
Qed.
Lemma mass_val el n m a b : isMass el n m -> (a < nMds el n)%nat -> (b < nMds el n)%nat -> m a b = if (a =? b)%nat then nb el n a else 0.
Proof. intros H Ha Hb. apply (intEl_unique el _ _ _ (H a b Ha Hb)). now apply bas_orth. Qed.
Lemma massI_val el n m mi a b : isMass el n m -> isInv (nMds el n) m mi -> (a < nMds el n)%nat -> (b < nMds el n)%nat -> mi a b = if (a =? b)%nat then / nb el n a else 0.
Proof.
  intros H HI Ha Hb. destruct (HI a b Ha Hb) as (E & _). unfold mmul in E. rewrite (rsum_one _ a) in E; [|exact Ha|].
  - rewrite (mass_val el n m a a H Ha Ha), Nat.eqb_refl in E. unfold delta in E. pose proof (nb_nz el n a). destruct (a =? b)%nat; apply (Rmult_eq_reg_l (nb el n a)); auto; rewrite E; [now field|ring].
  - intros k Hk N. rewrite (mass_val el n m a k H Ha Hk). destruct (Nat.eqb_spec a k); [congruence|ring].
Qed.
Lemma mmul_diag N a d (v : nat -> R) i j : (j < N)%nat -> (forall k, (k < N)%nat -> d k j = if (k =? j)%nat then v k else 0) -> mmul N a d i j = a i j * v j.
Proof.
  intros Hj H. unfold mmul. rewrite (rsum_one _ j); [rewrite H, Nat.eqb_refl by exact Hj; reflexivity|exact Hj|]. intros k Hk Nk. rewrite H by exact Hk. destruct (Nat.eqb_spec k j); [congruence|ring].
Qed.
(** entries of the matrices *)
Definition entries (el : refEl) (n : nat) (stiffT stiffV fluxL fluxN fluxT : nat -> matrix) (stiff proj0 ori : nat -> matrix) : Prop :=
  let N := nMds el n in let F := nMds (faEl el) n in
  (forall di, (di < dim el)%nat -> isStiff el n di (stiff di) /\ (forall i j, (i < N)%nat -> (j < N)%nat -> stiffT di i j = stiff di j i * / nb el n j /\ stiffV di i j = stiff di i j * / nb el n j)) /\
  (forall fa, (fa < nFas el)%nat -> isProj el n fa (proj0 fa) /\ (forall i j, (i < N)%nat -> (j < F)%nat -> fluxL fa i j = proj0 fa i j /\ fluxT fa j i = proj0 fa i j * / nb (faEl el) n j * / nb el n i)) /\
  (forall ve, (ve < nOri el)%nat -> isOri el n ve (ori ve)) /\
  (forall ve fa i j, (ve < nOri el)%nat -> (fa < nFas el)%nat -> (i < N)%nat -> (j < F)%nat -> fluxN (ve * nFas el + fa)%nat i j = rsum F (fun k => proj0 fa i k * / nb (faEl el) n k * ori ve k j)).
Lemma preMats_entries el n sT sV fL fN fT : preMats el n sT sV fL fN fT -> exists stiff proj0 ori, entries el n sT sV fL fN fT stiff proj0 ori.
Proof.
  intros (mass & massI & massFa & massFaI & stiff & proj0 & pj & ori & HM & HMI & HF & HFI & HS & HP & HO & HN). exists stiff, proj0, ori.
  assert (DP : forall fa i j, (fa < nFas el)%nat -> (i < nMds el n)%nat -> (j < nMds (faEl el) n)%nat -> pj fa i j = proj0 fa i j * / nb (faEl el) n j).
  { intros fa i j Hfa Hi Hj. destruct (HP fa Hfa) as (_ & E & _). rewrite E by assumption. apply (mmul_diag _ _ _ (fun k => / nb (faEl el) n k)); [exact Hj|]. intros k Hk. now apply (massI_val (faEl el) n massFa). }
  split; [|split; [|split]].
  - intros di Hd. destruct (HS di Hd) as (S & ET & EV). split; [exact S|]. intros i j Hi Hj. rewrite ET, EV by assumption.
    split; rewrite (mmul_diag _ _ _ (fun k => / nb el n k)); try exact Hj; try reflexivity; intros k Hk; now apply (massI_val el n mass).
  - intros fa Hfa. destruct (HP fa Hfa) as (P & E & EL & ET). split; [exact P|]. intros i j Hi Hj. rewrite EL, ET by assumption. split.
    + rewrite (mmul_diag _ _ _ (fun k => nb (faEl el) n k)), DP by (try assumption; intros k Hk; now apply mass_val). field. apply nb_nz.
    + rewrite (mmul_diag _ _ _ (fun k => / nb el n k)) by (try assumption; intros k Hk; now apply (massI_val el n mass)). unfold tr. rewrite DP by assumption. reflexivity.
  - exact HO.
  - intros ve fa i j Hv Hfa Hi Hj. rewrite HN by assumption. unfold mmul. apply rsum_ext. intros k Hk. rewrite DP by assumption. reflexivity.
Qed.

(** coefficients of a function of the span are its products with the basis functions *)
Lemma int_span el n f a b : (b < nMds el n)%nat -> (forall x y z, f x y z = rsum (nMds el n) (fun k => a k * bas el n k x y z)) ->
  intEl el (fun x y z => bas el n b x y z * f x y z) (a b * nb el n b).
Proof.
  intros Hb E. refine (intEl_ext el (fun x y z => rsum (nMds el n) (fun k => a k * (bas el n b x y z * bas el n k x y z))) _ _ _ _).
  { intros. rewrite E, <- rsum_mul. apply rsum_ext. intros. ring. }
  replace (a b * nb el n b) with (rsum (nMds el n) (fun k => a k * (if (b =? k)%nat then nb el n b else 0))).
  { apply (intEl_sum el (nMds el n) (fun k x y z => a k * (bas el n b x y z * bas el n k x y z))). intros k Hk. apply (intEl_scal el (a k) (fun x y z => bas el n b x y z * bas el n k x y z)). now apply bas_orth. }
  rewrite (rsum_one _ b); [now rewrite Nat.eqb_refl|exact Hb|]. intros k _ N. destruct (Nat.eqb_spec b k); [congruence|ring].
Qed.
Lemma expand el n f c : inSpan el n f -> (forall b, (b < nMds el n)%nat -> intEl el (fun x y z => bas el n b x y z * f x y z) (c b)) -> forall x y z, f x y z = rsum (nMds el n) (fun b => c b * / nb el n b * bas el n b x y z).
Proof.
  intros (a & E) H x y z. rewrite E. apply rsum_ext. intros b Hb. rewrite (intEl_unique el _ _ _ (H b Hb) (int_span el n f a b Hb E)). unfold bas. field. apply nb_nz.
Qed.
(** integral of a product of two functions, one of the span *)
Lemma parseval el n f g c d : inSpan el n f -> (forall b, (b < nMds el n)%nat -> intEl el (fun x y z => bas el n b x y z * f x y z) (c b)) ->
  (forall b, (b < nMds el n)%nat -> intEl el (fun x y z => g x y z * bas el n b x y z) (d b)) -> intEl el (fun x y z => g x y z * f x y z) (rsum (nMds el n) (fun b => d b * c b * / nb el n b)).
Proof.
  intros S HC HD. refine (intEl_ext el (fun x y z => rsum (nMds el n) (fun b => c b * / nb el n b * (g x y z * bas el n b x y z))) _ _ _ _).
  { intros. rewrite (expand el n f c S HC x y z), <- rsum_mul. apply rsum_ext. intros. ring. }
  rewrite (rsum_ext _ _ (fun b => c b * / nb el n b * d b)) by (intros; ring).
  apply (intEl_sum el _ (fun b x y z => c b * / nb el n b * (g x y z * bas el n b x y z))). intros b Hb. apply (intEl_scal el _ (fun x y z => g x y z * bas el n b x y z)). now apply HD.
Qed.

(** *** Traces *)
Definition degE (el : refEl) (d : nat) (e : mode) : Prop := nrm el e = e /\ (deg e <= d)%nat.
Definition simp (el : refEl) : Prop := match el with Line | Tria => True | _ => False end.
Lemma wd_mul el a b f g : wpoly el (degE el a) f -> wpoly el (degE el b) g -> wpoly el (degE el (a + b)) (fun x y z => f x y z * g x y z).
Proof.
  apply wp_mul. intros ((i & j) & k) ((i' & j') & k') (N & D) (N' & D'). unfold degE. cbn [deg addE] in *. split; [|lia].
  destruct el; cbn [nrm] in *; inversion N; inversion N'; reflexivity.
Qed.
Lemma wd_1 el : wpoly el (degE el 0) (fun _ _ _ => 1).
Proof. apply (wp_ext el _ (fun x y z => 1 * wmon el (0, 0, 0)%nat x y z)); [intros; destruct el; cbn; ring|]. apply wp_mon. split; [destruct el; reflexivity|cbn; lia]. Qed.
Lemma wd_pow el a f i : wpoly el (degE el a) f -> wpoly el (degE el (i * a)) (fun x y z => f x y z ^ i).
Proof. intros H. induction i as [|i IH]; cbn [pow Nat.mul]; [apply wd_1|]. now apply wd_mul. Qed.
Lemma wd_le el a b f : (a <= b)%nat -> wpoly el (degE el a) f -> wpoly el (degE el b) f.
Proof. intros L. apply wp_weaken. intros e (N & D). split; [exact N|lia]. Qed.
Lemma wd_aff el c0 c1 c2 f : simp el -> (forall x y z, f x y z = c0 + c1 * wc el 0 x y z + c2 * wc el 1 x y z) -> wpoly el (degE el 1) f.
Proof.
  intros Hs E. apply (wp_ext el _ (fun x y z => c0 * wmon el (0, 0, 0)%nat x y z + (c1 * wmon el (1, 0, 0)%nat x y z + (match el with Line => c2 | _ => 0 end * wmon el (0, 0, 0)%nat x y z + match el with Line => 0 | _ => c2 end * wmon el (0, match el with Line => 0 | _ => 1 end, 0)%nat x y z)))).
  { intros. rewrite E, !wmon_wc. destruct el; try contradiction; cbn [wc]; ring. }
  repeat apply wp_add; apply wp_mon; destruct el; try contradiction; split; cbn; reflexivity || lia.
Qed.
Lemma okE_deg el n d : simp el -> (d < n)%nat -> forall e, degE el d e -> okE el n e.
Proof. intros Hs L ((i & j) & k) (N & D). destruct el; try contradiction; cbn in *; [injection N as <- <-|injection N as <-]; lia. Qed.
Lemma onFace_rsum el fa N f c1 c2 c3 (a : nat -> R) : onFace el fa (fun x y z => rsum N (fun k => a k * f k x y z)) c1 c2 c3 = rsum N (fun k => a k * onFace el fa (f k) c1 c2 c3).
Proof. unfold onFace. destruct (faToEl el fa c1 c2) as ((u & v) & w). reflexivity. Qed.
Lemma trace_mon el fa n e : el <> Line -> (fa < nFas el)%nat -> okE el n e -> wpoly (faEl el) (okE (faEl el) n) (onFace el fa (wmon el e)).
Proof.
  intros NL Hfa H. destruct e as ((i & j) & k). destruct el; [contradiction| | | |].
  - (* quad *)
    cbn [okE faEl nFas] in *. assert (A1 : wpoly Line (degE Line 1) (fun x _ _ => 1 - x)) by (apply (wd_aff Line 0 1 0); [exact I|intros; cbn; ring]).
    assert (A2 : wpoly Line (degE Line 1) (fun x _ _ => 1 - (1 - x))) by (apply (wd_aff Line 1 (-1) 0); [exact I|intros; cbn; ring]).
    assert (P : forall s f c, (s < n)%nat -> wpoly Line (degE Line 1) f -> wpoly Line (okE Line n) (fun x y z => c * f x y z ^ s)).
    { intros s f c Hs Hf. apply wp_scal. apply (wp_weaken _ (degE Line (s * 1))); [apply okE_deg; [exact I|lia]|now apply wd_pow]. }
    destruct fa as [|[|[|[|fa]]]]; [| | | |lia].
    + refine (wp_ext _ _ _ _ _ (P i _ ((1 - 0) ^ j) _ A1)); [intros; cbn; ring|lia].
    + refine (wp_ext _ _ _ _ _ (P j _ ((1 - 1) ^ i) _ A1)); [intros; cbn; ring|lia].
    + refine (wp_ext _ _ _ _ _ (P i _ ((1 - 1) ^ j) _ A2)); [intros; cbn; ring|lia].
    + refine (wp_ext _ _ _ _ _ (P j _ ((1 - 0) ^ i) _ A2)); [intros; cbn; ring|lia].
  - (* tria *)
    cbn [okE faEl nFas] in *.
    assert (P : forall f g, wpoly Line (degE Line 1) f -> wpoly Line (degE Line 1) g -> wpoly Line (okE Line n) (fun x y z => f x y z ^ i * g x y z ^ j)).
    { intros f g Hf Hg. apply (wp_weaken _ (degE Line (i * 1 + j * 1))); [apply okE_deg; [exact I|lia]|]. apply wd_mul; now apply wd_pow. }
    destruct fa as [|[|[|fa]]]; [| | |lia].
    + refine (wp_ext _ _ _ _ _ (P (fun x _ _ => 1 - x - 0) (fun _ _ _ => 1 - 0) _ _)); [intros; cbn; ring|apply (wd_aff Line 0 1 0); [exact I|intros; cbn; ring]|apply (wd_aff Line 1 0 0); [exact I|intros; cbn; ring]].
    + refine (wp_ext _ _ _ _ _ (P (fun x _ _ => 1 - (1 - x) - x) (fun x _ _ => 1 - x) _ _)); [intros; cbn; ring|apply (wd_aff Line 0 0 0); [exact I|intros; cbn; ring]|apply (wd_aff Line 0 1 0); [exact I|intros; cbn; ring]].
    + refine (wp_ext _ _ _ _ _ (P (fun x _ _ => 1 - 0 - (1 - x)) (fun x _ _ => 1 - (1 - x)) _ _)); [intros; cbn; ring|apply (wd_aff Line 1 (-1) 0); [exact I|intros; cbn; ring]|apply (wd_aff Line 1 (-1) 0); [exact I|intros; cbn; ring]].
  - (* hex *)
    cbn [okE faEl nFas] in *.
    assert (P : forall a b c, (a < n)%nat -> (b < n)%nat -> wpoly Quad (okE Quad n) (fun x y z => c * wmon Quad (a, b, 0)%nat x y z)) by (intros; apply wp_mon; cbn; lia).
    destruct fa as [|[|[|[|[|[|fa]]]]]]; [| | | | | |lia].
    + refine (wp_ext _ _ _ _ _ (P j i ((1 - 0) ^ k) _ _)); [intros; cbn; ring|lia|lia].
    + refine (wp_ext _ _ _ _ _ (P i k ((1 - 0) ^ j) _ _)); [intros; cbn; ring|lia|lia].
    + refine (wp_ext _ _ _ _ _ (P j k ((1 - 1) ^ i) _ _)); [intros; cbn; ring|lia|lia].
    + refine (wp_ext _ _ _ _ _ (P k i ((1 - 1) ^ j) _ _)); [intros; cbn; ring|lia|lia].
    + refine (wp_ext _ _ _ _ _ (P k j ((1 - 0) ^ i) _ _)); [intros; cbn; ring|lia|lia].
    + refine (wp_ext _ _ _ _ _ (P i j ((1 - 1) ^ k) _ _)); [intros; cbn; ring|lia|lia].
  - (* tet *)
    cbn [okE faEl nFas] in *.
    assert (P : forall f g h, wpoly Tria (degE Tria 1) f -> wpoly Tria (degE Tria 1) g -> wpoly Tria (degE Tria 1) h -> wpoly Tria (okE Tria n) (fun x y z => f x y z ^ i * g x y z ^ j * h x y z ^ k)).
    { intros f g h Hf Hg Hh. apply (wp_weaken _ (degE Tria (i * 1 + j * 1 + k * 1))); [apply okE_deg; [exact I|lia]|]. apply (wd_mul Tria _ _ (fun x y z => f x y z ^ i * g x y z ^ j)); [apply wd_mul|]; now apply wd_pow. }
    assert (A : forall c0 c1 c2 f, (forall x y z : R, f x y z = c0 + c1 * (1 - x - y) + c2 * (1 - y)) -> wpoly Tria (degE Tria 1) f) by (intros c0 c1 c2 f E; apply (wd_aff Tria c0 c1 c2); [exact I|intros; cbn; apply E]).
    destruct fa as [|[|[|[|fa]]]]; [| | | |lia].
    + refine (wp_ext _ _ _ _ _ (P (fun x y _ => 1 - y - x - 0) (fun x y _ => 1 - x - 0) (fun x y _ => 1 - 0) _ _ _)); [intros; cbn; ring|apply (A 0 1 0)|apply (A 1 1 (-1))|apply (A 1 0 0)]; intros; cbn; ring.
    + refine (wp_ext _ _ _ _ _ (P (fun x y _ => 1 - x - 0 - y) (fun x y _ => 1 - 0 - y) (fun x y _ => 1 - y) _ _ _)); [intros; cbn; ring|apply (A 0 1 0)|apply (A 0 0 1)|apply (A 0 0 1)]; intros; cbn; ring.
    + refine (wp_ext _ _ _ _ _ (P (fun x y _ => 1 - 0 - y - x) (fun x y _ => 1 - y - x) (fun x y _ => 1 - x) _ _ _)); [intros; cbn; ring|apply (A 0 1 0)|apply (A 0 1 0)|apply (A 1 1 (-1))]; intros; cbn; ring.
    + refine (wp_ext _ _ _ _ _ (P (fun x y _ => 1 - (1 - x - y) - x - y) (fun x y _ => 1 - x - y) (fun x y _ => 1 - y) _ _ _)); [intros; cbn; ring|apply (A 0 0 0)|apply (A 0 1 0)|apply (A 0 0 1)]; intros; cbn; ring.
Qed.
Lemma trace_wp el fa n f : el <> Line -> (fa < nFas el)%nat -> wpoly el (okE el n) f -> wpoly (faEl el) (okE (faEl el) n) (onFace el fa f).
Proof.
  intros NL Hfa. induction 1 as [|e c He|f g Hf IHf Hg IHg|f g E Hf IHf].
  - refine (wp_ext _ _ _ _ _ (wp_zero _ _)). intros. unfold onFace. now destruct (faToEl el fa x y) as ((u & v) & w).
  - refine (wp_ext _ _ _ _ _ (wp_scal _ _ c _ (trace_mon el fa n e NL Hfa He))). intros. unfold onFace. now destruct (faToEl el fa x y) as ((u & v) & w).
  - refine (wp_ext _ _ _ _ _ (wp_add _ _ _ _ IHf IHg)). intros. unfold onFace. now destruct (faToEl el fa x y) as ((u & v) & w).
  - refine (wp_ext _ _ _ _ _ IHf). intros. unfold onFace. destruct (faToEl el fa x y) as ((u & v) & w). apply E.
Qed.
Lemma bas_wp el n b : (b < nMds el n)%nat -> wpoly el (okE el n) (bas el n b).
Proof. intros H. apply phi_wp. pose proof (modeAt_ok el n b H) as K. now rewrite (nrm_ok el n _ K). Qed.
Lemma trace_span el fa n b : el <> Line -> (fa < nFas el)%nat -> (b < nMds el n)%nat -> inSpan (faEl el) n (onFace el fa (bas el n b)).
Proof. intros. apply span, trace_wp; auto using bas_wp. Qed.

(** *** Turned faces *)
Lemma dint_flip f b I : dint f 0 b I -> dint (fun x => f (b - x)) 0 b I.
Proof.
  intros (F & HF & ->). exists (fun x => - F (b - x)). split; [|replace (b - b) with 0 by ring; replace (b - 0) with b by ring; ring].
  intros x. replace (f (b - x)) with (- (f (b - x) * -1)) by ring. apply (derivable_pt_lim_opp (fun x => F (b - x))). apply (derivable_pt_lim_comp (fun x => b - x) F); [apply aff_lim|apply HF].
Qed.
(** sums of products of powers of x and y *)
Inductive xpoly : (R -> R -> R -> R) -> Prop :=
| xp_mon i j c : xpoly (fun x y _ => c * (x ^ i * y ^ j))
| xp_add f g : xpoly f -> xpoly g -> xpoly (fun x y z => f x y z + g x y z)
| xp_ext f g : (forall x y z, f x y z = g x y z) -> xpoly f -> xpoly g.
Lemma xp_mul f g : xpoly f -> xpoly g -> xpoly (fun x y z => f x y z * g x y z).
Proof.
  intros Hf Hg. induction Hf as [i j c|f1 f2 H1 IH1 H2 IH2|f1 f2 E H1 IH1].
  - induction Hg as [k l d|g1 g2 K1 IK1 K2 IK2|g1 g2 E K1 IK1].
    + refine (xp_ext _ _ _ (xp_mon (i + k) (j + l) (c * d))). intros. rewrite !pow_add. ring.
    + refine (xp_ext _ _ _ (xp_add _ _ IK1 IK2)). intros. cbn. ring.
    + refine (xp_ext _ _ _ IK1). intros. cbn. now rewrite E.
  - refine (xp_ext _ _ _ (xp_add _ _ IH1 IH2)). intros. cbn. ring.
  - refine (xp_ext _ _ _ IH1). intros. cbn. now rewrite E.
Qed.
Lemma xp_const c : xpoly (fun _ _ _ => c). Proof. refine (xp_ext _ _ _ (xp_mon 0 0 c)). intros. cbn. ring. Qed.
Lemma xp_pow f n : xpoly f -> xpoly (fun x y z => f x y z ^ n). Proof. intros F. induction n as [|n IH]; cbn; [apply xp_const|]. now apply xp_mul. Qed.
Lemma xp_w1 : xpoly (fun x y _ => 1 - x - y).
Proof. refine (xp_ext _ _ _ (xp_add _ _ (xp_const 1) (xp_add _ _ (xp_mon 1 0 (-1)) (xp_mon 0 1 (-1))))). intros. cbn. ring. Qed.
Lemma xp_w2 : xpoly (fun x y _ => 1 - y). Proof. refine (xp_ext _ _ _ (xp_add _ _ (xp_const 1) (xp_mon 0 1 (-1)))). intros. cbn. ring. Qed.
Lemma xp_tria f : ispoly Tria f -> xpoly f.
Proof.
  induction 1 as [|e c He|f g Hf IHf Hg IHg|f g E Hf IHf]; [apply xp_const| |now apply xp_add|now apply (xp_ext f)].
  destruct e as ((i & j) & k). refine (xp_ext _ _ _ (xp_mul _ _ (xp_const c) (xp_mul _ _ (xp_pow _ i xp_w1) (xp_pow _ j xp_w2)))). intros. cbn. ring.
Qed.
(** Euler's beta function *)
Lemma dint_beta b : forall a, dint (fun y => (1 - y) ^ a * y ^ b) 0 1 (INR (fact a) * INR (fact b) / INR (fact (a + b + 1))).
Proof.
  induction b as [|b IH]; intros a.
  - refine (dint_ext (fun x => 1 * (1 - x) ^ a) _ _ _ _ _ _); [intros; cbn; ring|]. replace (INR (fact a) * INR (fact 0) / INR (fact (a + 0 + 1))) with (1 * (1 ^ S a / INR (S a))); [apply dint_pow|].
    rewrite pow1. replace (a + 0 + 1)%nat with (S a) by lia. cbn [fact]. rewrite mult_INR. cbn [INR]. pose proof (INR_fact_neq_0 a). assert (INR (S a) <> 0) by (apply not_0_INR; lia). cbn [INR] in *. field. auto.
  - assert (N : INR (S a) <> 0) by (apply not_0_INR; lia). destruct (dint_scal (INR (S b) / INR (S a)) _ _ _ _ (IH (S a))) as (F & HF & E).
    exists (fun y => F y - (1 - y) ^ S a * y ^ S b / INR (S a)). split.
    + intros y. replace ((1 - y) ^ a * y ^ S b) with (INR (S b) / INR (S a) * ((1 - y) ^ S a * y ^ b) - ((INR (S a) * (1 - y) ^ pred (S a) * -1) * y ^ S b + (1 - y) ^ S a * (INR (S b) * y ^ pred (S b))) * / INR (S a)).
      2:{ cbn [pred pow]. field. exact N. }
      apply (derivable_pt_lim_minus F (fun y => (1 - y) ^ S a * y ^ S b / INR (S a))); [apply HF|].
      apply (dlim_ext (fun y => / INR (S a) * ((1 - y) ^ S a * y ^ S b))); [intros; unfold Rdiv; ring|]. rewrite Rmult_comm. apply (derivable_pt_lim_scal (fun y => (1 - y) ^ S a * y ^ S b)).
      apply (derivable_pt_lim_mult (fun y => (1 - y) ^ S a) (fun y => y ^ S b)); [|apply derivable_pt_lim_pow]. apply pow_lim, aff_lim.
    + transitivity (F 1 - F 0); [|cbn [pow]; field; exact N]. rewrite <- E. replace (S a + b + 1)%nat with (a + S b + 1)%nat by lia. rewrite (fact_simpl a), (fact_simpl b), !mult_INR. pose proof (INR_fact_neq_0 (a + S b + 1)). field. auto.
Qed.
Lemma dint_xpow b i : dint (fun x => x ^ i) 0 b (b ^ S i / INR (S i)).
Proof.
  assert (N : INR (S i) <> 0) by (apply not_0_INR; lia). exists (fun x => x ^ S i / INR (S i)). split.
  - intros x. apply (dlim_ext (fun y => / INR (S i) * y ^ S i)); [intros; unfold Rdiv; ring|]. replace (x ^ i) with (/ INR (S i) * (INR (S i) * x ^ pred (S i))) by (cbn [pred]; field; exact N). apply (derivable_pt_lim_scal (fun y => y ^ S i)), derivable_pt_lim_pow.
  - cbn [pow]. unfold Rdiv. rewrite !Rmult_0_l. ring.
Qed.
Lemma tria_xmon i j c : intEl Tria (fun x y _ => c * (x ^ i * y ^ j)) (c * (INR (fact i) * INR (fact j) / INR (fact (i + j + 2)))).
Proof.
  assert (N : INR (S i) <> 0) by (apply not_0_INR; lia).
  exists (fun y => c * (y ^ j * ((1 - y) ^ S i / INR (S i)))). split.
  - intros y. refine (dint_ext (fun x => c * y ^ j * x ^ i) _ _ _ _ _ _); [intros; ring|]. rewrite <- Rmult_assoc. apply dint_scal, dint_xpow.
  - refine (dint_ext (fun y => c / INR (S i) * ((1 - y) ^ S i * y ^ j)) _ _ _ _ _ _); [intros; unfold Rdiv; ring|].
    replace (c * (INR (fact i) * INR (fact j) / INR (fact (i + j + 2)))) with (c / INR (S i) * (INR (fact (S i)) * INR (fact j) / INR (fact (S i + j + 1)))); [apply dint_scal, dint_beta|].
    replace (S i + j + 1)%nat with (i + j + 2)%nat by lia. rewrite (fact_simpl i), mult_INR. pose proof (INR_fact_neq_0 (i + j + 2)). field. auto.
Qed.
Lemma tria_swap f I : ispoly Tria f -> intEl Tria f I -> intEl Tria (fun x y z => f y x z) I.
Proof.
  intros P H. assert (K : exists J, intEl Tria f J /\ intEl Tria (fun x y z => f y x z) J).
  { apply xp_tria in P. clear H. induction P as [i j c|f g Hf (J & A & B) Hg (L & C & D)|f g E Hf (J & A & B)].
    - exists (c * (INR (fact i) * INR (fact j) / INR (fact (i + j + 2)))). split; [apply tria_xmon|]. refine (intEl_ext Tria (fun x y _ => c * (x ^ j * y ^ i)) _ _ _ _); [intros; ring|].
      rewrite (Rmult_comm (INR (fact i))), (Nat.add_comm i j). apply tria_xmon.
    - exists (J + L). split; [now apply intEl_add|]. now apply (intEl_add Tria (fun x y z => f y x z)).
    - exists J. split; [now apply (intEl_ext Tria f)|]. refine (intEl_ext Tria _ _ _ _ B). intros. apply E. }
  destruct K as (J & A & B). now rewrite (intEl_unique Tria f I J H A).
Qed.
Lemma quad_swap f I : ispoly Quad f -> intEl Quad f I -> intEl Quad (fun x y z => f y x z) I.
Proof.
  intros P H. assert (K : exists J, intEl Quad f J /\ intEl Quad (fun x y z => f y x z) J).
  { clear H. induction P as [|e c He|f g Hf (J & A & B) Hg (L & C & D)|f g E Hf (J & A & B)].
    - exists 0. split; apply intEl_zero.
    - destruct e as ((i & j) & k). exists (c * imon Quad (i, j, k)). split; [apply intEl_scal, intEl_mon|]. replace (imon Quad (i, j, k)) with (imon Quad (j, i, k)) by (cbn; ring).
      refine (intEl_ext Quad (fun x y z => c * wmon Quad (j, i, k) x y z) _ _ _ (intEl_scal Quad c _ _ (intEl_mon Quad (j, i, k)))). intros. cbn. ring.
    - exists (J + L). split; [now apply intEl_add|]. now apply (intEl_add Quad (fun x y z => f y x z)).
    - exists J. split; [now apply (intEl_ext Quad f)|]. refine (intEl_ext Quad _ _ _ _ B). intros. apply E. }
  destruct K as (J & A & B). now rewrite (intEl_unique Quad f I J H A).
Qed.
Lemma tria_flip f I : intEl Tria f I -> intEl Tria (fun x y z => f (1 - x - y) y z) I.
Proof.
  intros (g & G & H). exists g. split; [|exact H]. intros y. refine (dint_ext _ _ _ _ _ _ (dint_flip _ _ _ (G y))). intros x. cbn. f_equal. ring.
Qed.
Lemma ip_f_turned el ve f : el <> Line -> ispoly (faEl el) f -> ispoly (faEl el) (turned el ve f).
Proof.
  intros NL P. unfold turned.
  refine (ip_comp _ _ f (fun c1 c2 _ => fst (faToFa el ve c1 c2)) (fun c1 c2 _ => snd (faToFa el ve c1 c2)) (fun _ _ _ => 0) P _ _ (ip_const _ _)).
  all: destruct el; [contradiction| | | |]; cbn [faEl faToFa]; try (destruct ve as [|[|ve]]); cbn [fst snd].
  all: first [apply ip_const | apply ip_x | (apply ip_y; discriminate) | (apply ip_sub; [apply ip_const|apply ip_x]) | idtac].
  all: refine (ip_sub _ (fun x _ _ => 1 - x) (fun _ y _ => y) _ _); [apply (ip_sub _ (fun _ _ _ => 1)); [apply ip_const|apply ip_x]|apply ip_y; discriminate].
Qed.
(** turning the face does not change an integral *)
Lemma turned_int el ve f I : el <> Line -> (ve < nOri el)%nat -> (forall x y z, f x y z = f x y 0) -> ispoly (faEl el) f -> intEl (faEl el) f I -> intEl (faEl el) (turned el ve f) I.
Proof.
  intros NL Hv Z P H. unfold turned. destruct el; [contradiction| | | |]; cbn [faEl nOri] in *.
  - refine (dint_ext _ _ _ _ _ _ (dint_flip _ _ _ H)). intros. reflexivity.
  - refine (dint_ext _ _ _ _ _ _ (dint_flip _ _ _ H)). intros. reflexivity.
  - refine (intEl_ext Quad _ _ _ _ (quad_swap f I P H)). intros. apply Z.
  - destruct ve as [|[|[|ve]]]; [| | |lia]; cbn [faToFa fst snd].
    + refine (intEl_ext Tria _ _ _ _ (tria_swap f I P H)). intros. apply Z.
    + refine (intEl_ext Tria _ _ _ _ (tria_flip f I H)). intros. apply Z.
    + assert (S1 := tria_swap f I P H). assert (S2 := tria_flip _ _ S1). refine (intEl_ext Tria _ _ _ _ (tria_swap _ _ _ S2)); [intros; cbn; rewrite Z; f_equal; ring|].
      refine (wp_ext _ _ (fun x y z => f y (1 - x - y) 0) _ (fun x y z => eq_sym (Z y (1 - x - y) z)) _).
      refine (ip_comp Tria Tria f (fun x y _ => y) (fun x y _ => 1 - x - y) (fun _ _ _ => 0) P _ _ (ip_const _ _)); [apply ip_y; discriminate|].
      refine (ip_sub _ (fun x _ _ => 1 - x) (fun _ y _ => y) _ _); [apply (ip_sub _ (fun _ _ _ => 1)); [apply ip_const|apply ip_x]|apply ip_y; discriminate].
Qed.

(** *** Existence *)
Lemma choose2 (P : nat -> nat -> R -> Prop) n m : (forall i j, (i < n)%nat -> (j < m)%nat -> exists v, P i j v) -> exists f : matrix, forall i j, (i < n)%nat -> (j < m)%nat -> P i j (f i j).
Proof.
  intros H. assert (R : forall i, (i < n)%nat -> exists r : nat -> R, forall j, (j < m)%nat -> P i j (r j)).
  { intros i Hi. assert (K : forall k, (k <= m)%nat -> exists r : nat -> R, forall j, (j < k)%nat -> P i j (r j)).
    { induction k as [|k IH]; intros Hk; [exists (fun _ => 0); lia|]. destruct (IH ltac:(lia)) as (r & Hr). destruct (H i k Hi ltac:(lia)) as (v & Hv). exists (fun j => if (j =? k)%nat then v else r j).
      intros j Hj. destruct (Nat.eqb_spec j k) as [->|N]; [exact Hv|]. apply Hr. lia. }
    now apply K. }
  assert (K : forall k, (k <= n)%nat -> exists f : matrix, forall i j, (i < k)%nat -> (j < m)%nat -> P i j (f i j)).
  { induction k as [|k IH]; intros Hk; [exists (fun _ _ => 0); lia|]. destruct (IH ltac:(lia)) as (f & Hf). destruct (R k ltac:(lia)) as (r & Hr). exists (fun i => if (i =? k)%nat then r else f i).
    intros i j Hi Hj. destruct (Nat.eqb_spec i k) as [->|N]; [now apply Hr|]. apply Hf; [lia|exact Hj]. }
  now apply K.
Qed.
Lemma choose1 (P : nat -> matrix -> Prop) n : (forall i, (i < n)%nat -> exists v, P i v) -> exists f : nat -> matrix, forall i, (i < n)%nat -> P i (f i).
Proof.
  intros H. assert (K : forall k, (k <= n)%nat -> exists f : nat -> matrix, forall i, (i < k)%nat -> P i (f i)).
  { induction k as [|k IH]; intros Hk; [exists (fun _ _ _ => 0); lia|]. destruct (IH ltac:(lia)) as (f & Hf). destruct (H k ltac:(lia)) as (v & Hv). exists (fun i => if (i =? k)%nat then v else f i).
    intros i Hi. destruct (Nat.eqb_spec i k) as [->|N]; [exact Hv|]. apply Hf. lia. }
  now apply K.
Qed.
Lemma ip_bas el n b : ispoly el (bas el n b). Proof. apply phi_ip. Qed.
Lemma ip_wp el ok f : wpoly el ok f -> ispoly el f. Proof. apply wp_weaken. intros; exact I. Qed.
Lemma mass_ex el n : exists m, isMass el n m. Proof. apply (choose2 (fun ro co v => intEl el (fun x y z => bas el n ro x y z * bas el n co x y z) v)). intros i j Hi Hj. eexists. now apply bas_orth. Qed.
Lemma inv_ex el n m : isMass el n m -> exists mi, isInv (nMds el n) m mi.
Proof.
  intros H. exists (fun i j => if (i =? j)%nat then / nb el n i else 0). intros i j Hi Hj. pose proof (nb_nz el n i) as Ni. pose proof (nb_nz el n j) as Nj. split.
  - rewrite (mmul_diag _ _ _ (fun k => / nb el n k)) by (auto; intros k Hk; destruct (Nat.eqb_spec k j) as [->|]; reflexivity). rewrite (mass_val el n m) by assumption. unfold delta. destruct (Nat.eqb_spec i j) as [->|]; [field; exact Nj|ring].
  - rewrite (mmul_diag _ _ _ (fun k => nb el n k)) by (auto; intros k Hk; now apply mass_val). unfold delta. destruct (Nat.eqb_spec i j) as [->|]; [field; exact Nj|ring].
Qed.
Lemma preMats_ex el n : el <> Line -> exists sT sV fL fN fT, preMats el n sT sV fL fN fT.
Proof.
  intros NL. destruct (mass_ex el n) as (mass & HM). destruct (inv_ex el n mass HM) as (massI & HMI). destruct (mass_ex (faEl el) n) as (massFa & HF). destruct (inv_ex _ n massFa HF) as (massFaI & HFI).
  destruct (choose1 (isStiff el n) (dim el)) as (stiff & HS).
  { intros di Hd. apply (choose2 (fun ro co v => exists d, isder di (bas el n co) d /\ intEl el (fun x y z => bas el n ro x y z * d x y z) v)). intros ro co Hro Hco.
    destruct (wp_der el (okE el n) (okE el n) di (bas el n co) Hd) as (g & G & W); [intros; now apply okE_dec|now apply bas_wp|].
    destruct (wp_int el _ _ (ip_mul el _ _ (ip_bas el n ro) (ip_wp _ _ _ W))) as (v & Hv). exists v, g. auto. }
  destruct (choose1 (isProj el n) (nFas el)) as (proj0 & HP).
  { intros fa Hfa. apply (choose2 (fun ro co v => intEl (faEl el) (fun x y z => bas (faEl el) n co x y z * onFace el fa (bas el n ro) x y z) v)). intros ro co Hro Hco.
    destruct (wp_int _ _ _ (ip_mul _ _ _ (ip_bas (faEl el) n co) (ip_wp _ _ _ (trace_wp el fa n _ NL Hfa (bas_wp el n ro Hro))))) as (v & Hv). exists v. exact Hv. }
  destruct (choose1 (isOri el n) (nOri el)) as (ori & HO).
  { intros ve Hv. apply (choose2 (fun ro co v => intEl (faEl el) (fun x y z => turned el ve (bas (faEl el) n ro) x y z * bas (faEl el) n co x y z) v)). intros ro co Hro Hco.
    destruct (wp_int _ _ _ (ip_mul _ _ _ (ip_f_turned el ve _ NL (ip_bas (faEl el) n ro)) (ip_bas (faEl el) n co))) as (v & Hv'). exists v. exact Hv'. }
  set (N := nMds el n). set (F := nMds (faEl el) n). set (pj := fun fa => mmul F (proj0 fa) massFaI).
  exists (fun di => mmul N (tr (stiff di)) massI), (fun di => mmul N (stiff di) massI), (fun fa => mmul F (pj fa) massFa), (fun i => mmul F (pj (i mod nFas el)%nat) (ori (i / nFas el)%nat)), (fun fa => mmul N (tr (pj fa)) massI).
  exists mass, massI, massFa, massFaI, stiff, proj0, pj, ori. split; [exact HM|]. split; [exact HMI|]. split; [exact HF|]. split; [exact HFI|]. split; [|split; [|split]].
  - intros di Hd. split; [now apply HS|]. split; intros i j _ _; reflexivity.
  - intros fa Hfa. split; [now apply HP|]. repeat split; intros i j _ _; reflexivity.
  - exact HO.
  - intros ve fa Hv Hfa i j _ _. assert (nFas el <> 0%nat) by (destruct el; discriminate). rewrite Nat.div_add_l, Nat.div_small, Nat.add_0_r by (auto; lia). rewrite (Nat.add_comm (ve * nFas el)), Nat.mod_add, Nat.mod_small by assumption. reflexivity.
Qed.
