(** Polynomials on the reference elements: sums of monomials; derivatives; the span of the basis functions. *)
From Coq Require Import List ZArith Reals Lra Lia Bool.
From Verif Require Import BasisSpec BasisInt BasisOrth Basis BasisModes.
Import ListNotations.
Local Open Scope R_scope.

Inductive wpoly (el : refEl) (ok : mode -> Prop) : (R -> R -> R -> R) -> Prop :=
| wp_zero : wpoly el ok (fun _ _ _ => 0)
| wp_mon e c : ok e -> wpoly el ok (fun x y z => c * wmon el e x y z)
| wp_add f g : wpoly el ok f -> wpoly el ok g -> wpoly el ok (fun x y z => f x y z + g x y z)
| wp_ext f g : (forall x y z, f x y z = g x y z) -> wpoly el ok f -> wpoly el ok g.
Lemma wp_weaken el (ok ok' : mode -> Prop) f : (forall e, ok e -> ok' e) -> wpoly el ok f -> wpoly el ok' f.
Proof. intros H. induction 1; [apply wp_zero|apply wp_mon; auto|now apply wp_add|now apply (wp_ext el ok' f)]. Qed.
Lemma wp_scal el ok c f : wpoly el ok f -> wpoly el ok (fun x y z => c * f x y z).
Proof.
  induction 1 as [|e d He|f g Hf IHf Hg IHg|f g E Hf IHf].
  - apply (wp_ext el ok (fun _ _ _ => 0)); [intros; ring|apply wp_zero].
  - apply (wp_ext el ok (fun x y z => (c * d) * wmon el e x y z)); [intros; ring|now apply wp_mon].
  - eapply wp_ext; [|apply (wp_add _ _ _ _ IHf IHg)]. intros. cbn. ring.
  - eapply wp_ext; [|exact IHf]. intros. cbn. now rewrite E.
Qed.
Lemma wp_mul el (ok1 ok2 ok : mode -> Prop) f g : (forall a b, ok1 a -> ok2 b -> ok (addE a b)) -> wpoly el ok1 f -> wpoly el ok2 g -> wpoly el ok (fun x y z => f x y z * g x y z).
Proof.
  intros H Hf Hg. induction Hf as [|e c He|f1 f2 H1 IH1 H2 IH2|f1 f2 E H1 IH1].
  - apply (wp_ext el ok (fun _ _ _ => 0)); [intros; ring|apply wp_zero].
  - induction Hg as [|e' c' He'|g1 g2 H1 IH1 H2 IH2|g1 g2 E H1 IH1].
    + apply (wp_ext el ok (fun _ _ _ => 0)); [intros; ring|apply wp_zero].
    + apply (wp_ext el ok (fun x y z => (c * c') * wmon el (addE e e') x y z)); [intros; rewrite <- wmon_add; ring|apply wp_mon; auto].
    + eapply wp_ext; [|apply (wp_add _ _ _ _ IH1 IH2)]. intros. cbn. ring.
    + eapply wp_ext; [|exact IH1]. intros. cbn. now rewrite E.
  - eapply wp_ext; [|apply (wp_add _ _ _ _ IH1 IH2)]. intros. cbn. ring.
  - eapply wp_ext; [|exact IH1]. intros. cbn. now rewrite E.
Qed.
Lemma wp_rsum el ok n (f : nat -> R -> R -> R -> R) : (forall i, (i < n)%nat -> wpoly el ok (f i)) -> wpoly el ok (fun x y z => rsum n (fun i => f i x y z)).
Proof. induction n as [|n IH]; intros H; cbn [rsum]; [apply wp_zero|]. apply (wp_add el ok (fun x y z => rsum n (fun i => f i x y z))); [apply IH; intros; apply H; lia|apply H; lia]. Qed.
Lemma wp_int el ok f : wpoly el ok f -> exists I, intEl el f I.
Proof.
  induction 1 as [|e c He|f g Hf (I & HI) Hg (J & HJ)|f g E Hf (I & HI)].
  - exists 0. apply intEl_zero.
  - exists (c * imon el e). apply intEl_scal, intEl_mon.
  - exists (I + J). now apply intEl_add.
  - exists I. exact (intEl_ext el f g I E HI).
Qed.
(** all polynomials in the coordinates *)
Definition anyE (_ : mode) : Prop := True.
Definition ispoly (el : refEl) (f : R -> R -> R -> R) : Prop := wpoly el anyE f.
Lemma ip_const el c : ispoly el (fun _ _ _ => c).
Proof. apply (wp_ext el anyE (fun x y z => c * wmon el (0, 0, 0)%nat x y z)); [|now apply wp_mon]. intros. destruct el; cbn; ring. Qed.
Lemma ip_mul el f g : ispoly el f -> ispoly el g -> ispoly el (fun x y z => f x y z * g x y z). Proof. apply wp_mul. intros; exact Logic.I. Qed.
Lemma ip_sub el f g : ispoly el f -> ispoly el g -> ispoly el (fun x y z => f x y z - g x y z).
Proof. intros F G. apply (wp_ext el anyE (fun x y z => f x y z + -1 * g x y z)); [intros; ring|]. apply wp_add; [exact F|]. now apply wp_scal. Qed.
Lemma ip_pow el f n : ispoly el f -> ispoly el (fun x y z => f x y z ^ n). Proof. intros F. induction n as [|n IH]; cbn; [apply ip_const|]. now apply ip_mul. Qed.
Lemma ip_mon el e : ispoly el (wmon el e). Proof. apply (wp_ext el anyE (fun x y z => 1 * wmon el e x y z)); [intros; ring|now apply wp_mon]. Qed.
Lemma ip_1m el e f : (forall x y z, f x y z = 1 - wmon el e x y z) -> ispoly el f.
Proof. intros H. apply (wp_ext el anyE (fun x y z => 1 - wmon el e x y z)); [intros; now rewrite H|]. apply ip_sub; [apply ip_const|apply ip_mon]. Qed.
Lemma ip_mm el e e' f : (forall x y z, f x y z = wmon el e x y z - wmon el e' x y z) -> ispoly el f.
Proof. intros H. apply (wp_ext el anyE (fun x y z => wmon el e x y z - wmon el e' x y z)); [intros; now rewrite H|]. apply ip_sub; apply ip_mon. Qed.
Lemma ip_x el : ispoly el (fun x y z => x).
Proof. destruct el; try (apply (ip_1m _ (1, 0, 0)%nat); intros; cbn; ring); apply (ip_mm _ (0, 1, 0)%nat (1, 0, 0)%nat); intros; cbn; ring. Qed.
Lemma ip_y el : el <> Line -> ispoly el (fun x y z => y).
Proof. intros N. destruct el; [contradiction| | | |]; try (apply (ip_1m _ (0, 1, 0)%nat); intros; cbn; ring); apply (ip_mm _ (0, 0, 1)%nat (0, 1, 0)%nat); intros; cbn; ring. Qed.
(** a polynomial of affine functions *)
Lemma ip_comp el el' f a b c : ispoly el f -> ispoly el' a -> ispoly el' b -> ispoly el' c -> ispoly el' (fun x y z => f (a x y z) (b x y z) (c x y z)).
Proof.
  intros Hf A B D. induction Hf as [|e k He|f g Hf IHf Hg IHg|f g E Hf IHf].
  - apply wp_zero.
  - apply wp_scal. destruct e as ((i & j) & k'). destruct el; cbn [wmon]; repeat apply ip_mul; apply ip_pow; repeat apply ip_sub; auto using ip_const.
  - now apply (wp_add el' anyE (fun x y z => f (a x y z) (b x y z) (c x y z))).
  - eapply wp_ext; [|exact IHf]. intros. apply E.
Qed.
(** *** Basis functions are such polynomials; exponents *)
Definition lowE (d : nat) (e : mode) : Prop := (deg e < d)%nat.
Lemma wp_msum el ok m (f : mode -> R -> R -> R -> R) : (forall i j k, let '(p, q, r) := nrm el m in (i <= p -> j <= q -> k <= r -> wpoly el ok (f (i, j, k)))%nat) -> wpoly el ok (fun x y z => msum el m (fun t => f t x y z)).
Proof.
  intros H. unfold msum. destruct (nrm el m) as ((p & q) & r). apply wp_rsum. intros i Hi. apply wp_rsum. intros j Hj. apply wp_rsum. intros k Hk. apply H; lia.
Qed.
(** exponents of the polynomials of an order: total degree (triangles, tetrahedra), or each of them *)
Definition okE (el : refEl) (n : nat) (e : mode) : Prop :=
  let '(i, j, k) := e in match el with Line => (i < n /\ j = 0 /\ k = 0)%nat | Quad => (i < n /\ j < n /\ k = 0)%nat | Tria => (i + j < n /\ k = 0)%nat | Hex => (i < n /\ j < n /\ k < n)%nat | Tet => (i + j + k < n)%nat end.
Lemma phi_wp el n m : okE el n (nrm el m) -> wpoly el (okE el n) (phi el m).
Proof.
  intros H. apply (wp_ext el _ (fun x y z => msum el m (fun t => tc el m t * wmon el (te el m t) x y z))); [intros; now rewrite <- phi_sum|].
  apply wp_msum. destruct m as ((p & q) & r). intros i j k. destruct (nrm el (p, q, r)) as ((p' & q') & r') eqn:E. intros Hi Hj Hk. apply wp_mon. destruct el; cbn [nrm te okE] in *; injection E as <- <- <-; lia.
Qed.
Lemma phi_ip el m : ispoly el (phi el m).
Proof. apply (wp_ext el anyE (fun x y z => msum el m (fun t => tc el m t * wmon el (te el m t) x y z))); [intros; now rewrite <- phi_sum|]. apply wp_msum. intros i j k. destruct (nrm el m) as ((p & q) & r). intros. now apply wp_mon. Qed.
(** the modes of an order are those with these exponents *)
Lemma in_modes el n m : In m (modes el n) <-> okE el n m.
Proof.
  unfold modes. rewrite in_flat_map. destruct m as ((p & q) & r). destruct el; cbn [level okE]; split.
  - intros (de & Hd%in_seq & [[= <- <- <-]|[]]). lia.
  - intros (H & -> & ->). exists p. split; [apply in_seq; lia|now left].
  - intros (de & Hd%in_seq & (p' & [= -> -> <-] & Hp%in_seq)%in_map_iff). lia.
  - intros (H & H' & ->). exists q. split; [apply in_seq; lia|]. apply in_map_iff. exists p. split; [reflexivity|apply in_seq; lia].
  - intros (de & Hd%in_seq & (p' & [= -> <- <-] & Hp%in_seq)%in_map_iff). lia.
  - intros (H & ->). exists (p + q)%nat. split; [apply in_seq; lia|]. apply in_map_iff. exists p. split; [f_equal; f_equal; lia|apply in_seq; lia].
  - intros (de & Hd%in_seq & (q' & Hq%in_seq & (p' & [= -> -> ->] & Hp%in_seq)%in_map_iff)%in_flat_map). lia.
  - intros (H & H' & H''). exists r. split; [apply in_seq; lia|]. apply in_flat_map. exists q. split; [apply in_seq; lia|]. apply in_map_iff. exists p. split; [reflexivity|apply in_seq; lia].
  - intros (de & Hd%in_seq & (p' & Hp%in_seq & (q' & [= -> -> <-] & Hq%in_seq)%in_map_iff)%in_flat_map). lia.
  - intros H. exists (p + q + r)%nat. split; [apply in_seq; lia|]. apply in_flat_map. exists p. split; [apply in_seq; lia|]. apply in_map_iff. exists q. split; [f_equal; lia|apply in_seq; lia].
Qed.
Lemma modeAt_ok el n b : (b < nMds el n)%nat -> okE el n (modeAt el n b). Proof. intros H. apply in_modes, modeAt_in, H. Qed.
Lemma nrm_ok el n m : okE el n m -> nrm el m = m. Proof. destruct m as ((p & q) & r). destruct el; cbn; intros; repeat match goal with H : _ /\ _ |- _ => destruct H end; subst; reflexivity. Qed.
Lemma mode_index el n m : okE el n m -> exists b, (b < nMds el n)%nat /\ modeAt el n b = m.
Proof. intros H. apply in_modes in H. destruct (In_nth _ _ (0, 0, 0)%nat H) as (b & Hb & E). rewrite length_modes in Hb. exists b. auto. Qed.

(** *** The span *)
Definition inSpan (el : refEl) (n : nat) (f : R -> R -> R -> R) : Prop := exists a, forall x y z, f x y z = rsum (nMds el n) (fun b => a b * phi el (modeAt el n b) x y z).
Lemma sp_zero el n : inSpan el n (fun _ _ _ => 0). Proof. exists (fun _ => 0). intros. symmetry. apply rsum_0. intros. ring. Qed.
Lemma sp_add el n f g : inSpan el n f -> inSpan el n g -> inSpan el n (fun x y z => f x y z + g x y z).
Proof. intros (a & A) (b & B). exists (fun i => a i + b i). intros x y z. rewrite A, B, <- rsum_add. apply rsum_ext. intros. ring. Qed.
Lemma sp_scal el n c f : inSpan el n f -> inSpan el n (fun x y z => c * f x y z).
Proof. intros (a & A). exists (fun i => c * a i). intros x y z. rewrite A, <- rsum_mul. apply rsum_ext. intros. ring. Qed.
Lemma sp_ext el n f g : (forall x y z, f x y z = g x y z) -> inSpan el n f -> inSpan el n g. Proof. intros E (a & A). exists a. intros x y z. rewrite <- E. apply A. Qed.
Lemma sp_phi el n m : okE el n m -> inSpan el n (phi el m).
Proof.
  intros H. destruct (mode_index el n m H) as (b & Hb & <-). exists (fun i => if (i =? b)%nat then 1 else 0). intros x y z. symmetry. rewrite (rsum_one _ b); [rewrite Nat.eqb_refl; ring|exact Hb|]. intros i _ N. destruct (Nat.eqb_spec i b); [contradiction|ring].
Qed.
(** the mode with a given leading monomial, its size *)
Definition lead (el : refEl) (e : mode) : mode := e.
Definition size (el : refEl) (e : mode) : nat := let '(i, j, k) := e in match el with Tria | Tet => i + (i + j) + (i + j + k) | _ => i + j + k end%nat.
Lemma tc_top el n e : okE el n e -> tc el e e <> 0.
Proof.
  assert (K : forall a n, hc n a n <> 0).
  { intros a k H. pose proof (tj_top k a) as E. rewrite H, Rmult_0_l in E. symmetry in E. revert E. apply Rinv_neq_0_compat, not_0_INR. lia. }
  intros _. destruct e as ((i & j) & k). destruct el; cbn [tc]; repeat match goal with |- _ * _ <> 0 => apply Rmult_integral_contrapositive_currified end; apply K.
Qed.
Lemma te_top el n e : okE el n e -> te el e e = e.
Proof. destruct e as ((i & j) & k). destruct el; cbn [te okE]; intros H; repeat match goal with H : _ /\ _ |- _ => destruct H end; subst; f_equal; try f_equal; lia. Qed.
Lemma msum_top el e f : nrm el e = e -> msum el e (fun t => if eqMode t e then f t else 0) = f e.
Proof.
  intros N. unfold msum. rewrite N. destruct e as ((p & q) & r).
  rewrite (rsum_one _ p); [|lia|intros i _ Hi; apply rsum_0; intros j _; apply rsum_0; intros k _; unfold eqMode; destruct (Nat.eqb_spec i p); [contradiction|reflexivity]].
  rewrite (rsum_one _ q); [|lia|intros j _ Hj; apply rsum_0; intros k _; unfold eqMode; destruct (Nat.eqb_spec j q); [contradiction|rewrite andb_false_r; reflexivity]].
  rewrite (rsum_one _ r); [|lia|intros k _ Hk; unfold eqMode; destruct (Nat.eqb_spec k r); [contradiction|rewrite andb_false_r; reflexivity]]. unfold eqMode. rewrite !Nat.eqb_refl. reflexivity.
Qed.
Lemma msum_add el m f g : msum el m (fun t => f t + g t) = msum el m f + msum el m g.
Proof. unfold msum. destruct (nrm el m) as ((p & q) & r). rewrite <- rsum_add. apply rsum_ext. intros i _. rewrite <- rsum_add. apply rsum_ext. intros j _. apply rsum_add. Qed.
Lemma span_aux el n k f : wpoly el (fun e => okE el n e /\ (size el e < k)%nat) f -> inSpan el n f.
Proof.
  revert f. induction k as [|k IH]; intros f Hf; induction Hf as [|e c (He & Hs)|f g Hf IHf Hg IHg|f g E Hf IHf]; try apply sp_zero; try (now apply sp_add); try (now apply (sp_ext el n f)); [lia|].
  apply sp_scal. set (rest := fun x y z => msum el e (fun t => (if eqMode t e then 0 else tc el e t) * wmon el (te el e t) x y z)).
  assert (R : inSpan el n rest).
  { apply IH. apply wp_msum. intros i j l. rewrite (nrm_ok el n e He). destruct e as ((p & q) & r) eqn:Ee. intros Hi Hj Hl. destruct (eqMode (i, j, l) (p, q, r)) eqn:Q.
    - eapply wp_ext; [|apply wp_zero]. intros. cbn beta. ring.
    - apply wp_mon. assert (NE : ~ (i = p /\ j = q /\ l = r)) by (intros (-> & -> & ->); unfold eqMode in Q; rewrite !Nat.eqb_refl in Q; discriminate).
      destruct el; cbn [te okE size] in *; lia. }
  pose proof (tc_top el n e He) as T. apply (sp_ext el n (fun x y z => / tc el e e * (phi el e x y z + -1 * rest x y z))).
  - intros x y z. unfold rest. rewrite phi_sum. rewrite (msum_ext el e (fun t => tc el e t * wmon el (te el e t) x y z) (fun t => (if eqMode t e then tc el e t * wmon el (te el e t) x y z else 0) + (if eqMode t e then 0 else tc el e t) * wmon el (te el e t) x y z)) by (intros t; destruct (eqMode t e); ring).
    rewrite msum_add, (msum_top el e (fun t => tc el e t * wmon el (te el e t) x y z) (nrm_ok el n e He)), (te_top el n e He). field. exact T.
  - apply sp_scal, sp_add; [now apply sp_phi|now apply sp_scal].
Qed.
Lemma span_bound el n e : okE el n e -> (size el e < 3 * n)%nat. Proof. destruct e as ((i & j) & k). destruct el; cbn; lia. Qed.
Lemma span el n f : wpoly el (okE el n) f -> inSpan el n f.
Proof. intros H. apply (span_aux el n (3 * n)). apply (wp_weaken el (okE el n)); [|exact H]. intros e He. split; [exact He|now apply span_bound]. Qed.
