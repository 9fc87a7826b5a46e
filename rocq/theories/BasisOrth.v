(** Orthogonality of the basis functions of [BasisSpec], for all degrees. *)
From Coq Require Import List ZArith Reals Lra Lia Bool.
From Verif Require Import BasisSpec BasisInt.
Import ListNotations.
Local Open Scope R_scope.

(** coefficients of the Jacobi polynomials in powers of (1-x)/2 *)
Definition hc (n a m : nat) : R := C n m * C (n + a + m) n * (-1) ^ m.
Lemma hom_sum n a u v : hom n a u v = rsum (S n) (fun m => hc n a m * ((v - u) ^ m * v ^ (n - m))).
Proof. unfold hom. rewrite rsum_f_R0. apply rsum_ext. intros m _. unfold hc. replace (u - v) with (-1 * (v - u)) by ring. rewrite Rpow_mult_distr. ring. Qed.
Definition tj (n a : nat) (c : R) : R := rsum (S n) (fun m => hc n a m * / (INR m + c)).
Lemma C_prodl n a m : C (n + a + m) n = prodl (fun i => INR (a + 1 + i)) n (INR m) / INR (fact n).
Proof.
  assert (P : prodl (fun i => INR (a + 1 + i)) n (INR m) * INR (fact (a + m)) = INR (fact (n + a + m))).
  { induction n as [|n IH]; cbn [prodl]; [rewrite Rmult_1_l; reflexivity|]. replace (S n + a + m)%nat with (S (n + a + m)) by lia. change (fact (S (n + a + m))) with (S (n + a + m) * fact (n + a + m))%nat.
    rewrite mult_INR, <- IH. replace (S (n + a + m)) with (m + (a + 1 + n))%nat by lia. rewrite (plus_INR m). ring. }
  unfold C. replace (n + a + m - n)%nat with (a + m)%nat by lia. rewrite <- P. field. split; apply INR_fact_neq_0.
Qed.
Lemma tj_val n a c : 0 < c -> tj n a c = prodl (fun i => INR (a + 1 + i)) n (- c) / prodl INR (S n) c.
Proof.
  intros Hc. unfold tj. transitivity (/ INR (fact n) * alt n (fun m => prodl (fun i => INR (a + 1 + i)) n (INR m) * / (INR m + c))).
  - rewrite alt_C, <- rsum_mul. apply rsum_ext. intros m _. unfold hc. rewrite C_prodl. unfold Rdiv. ring.
  - rewrite alt_frac by (auto; lia). unfold Rdiv. field. split; [|apply INR_fact_neq_0].
    assert (G : forall k, 0 < prodl INR k c) by (induction k as [|k IH]; cbn; [lra|]; apply Rmult_lt_0_compat; [exact IH|]; pose proof (pos_INR k); lra). pose proof (G (S n)). lra.
Qed.
Lemma prodl_0 b n k x : (k < n)%nat -> x + b k = 0 -> prodl b n x = 0.
Proof. induction n as [|n IH]; intros Hk E; [lia|]. cbn. destruct (Nat.eq_dec k n) as [->|N]; [rewrite E; ring|]. rewrite IH by (auto; lia). ring. Qed.
Lemma tj_zero n a k : (k < n)%nat -> tj n a (INR (a + 1 + k)) = 0.
Proof. intros Hk. rewrite tj_val by (apply lt_0_INR; lia). rewrite (prodl_0 _ n k) by (auto; ring). unfold Rdiv. ring. Qed.
Lemma tj_top n a : hc n a n * tj n a (INR (a + 1 + n)) = / INR (2 * n + a + 1).
Proof.
  rewrite tj_val by (apply lt_0_INR; lia).
  assert (N1 : forall k, (k <= n)%nat -> prodl (fun i => INR (a + 1 + i)) k (- INR (a + 1 + n)) * INR (fact (n - k)) = (-1) ^ k * INR (fact n)).
  { induction k as [|k IH]; intros Hk; cbn [prodl pow]; [rewrite Nat.sub_0_r; ring|]. specialize (IH ltac:(lia)). replace (n - k)%nat with (S (n - S k)) in IH by lia.
    change (fact (S (n - S k))) with (S (n - S k) * fact (n - S k))%nat in IH. rewrite mult_INR in IH. replace (- INR (a + 1 + n) + INR (a + 1 + k)) with (- INR (S (n - S k))); [lra|].
    replace (a + 1 + n)%nat with ((a + 1 + k) + S (n - S k))%nat by lia. rewrite (plus_INR (a + 1 + k)). ring. }
  specialize (N1 n (Nat.le_refl n)). rewrite Nat.sub_diag in N1. cbn [fact] in N1. rewrite Rmult_1_r in N1. rewrite N1.
  assert (N2 : forall k, prodl INR k (INR (a + 1 + n)) * INR (fact (a + n)) = INR (fact (a + n + k))).
  { induction k as [|k IH]; cbn [prodl]; [rewrite Nat.add_0_r; ring|]. replace (a + n + S k)%nat with (S (a + n + k)) by lia. change (fact (S (a + n + k))) with (S (a + n + k) * fact (a + n + k))%nat. rewrite mult_INR, <- IH.
    replace (S (a + n + k)) with ((a + 1 + n) + k)%nat by lia. rewrite (plus_INR (a + 1 + n)). ring. }
  specialize (N2 (S n)). replace (a + n + S n)%nat with (S (n + a + n)) in N2 by lia. change (fact (S (n + a + n))) with (S (n + a + n) * fact (n + a + n))%nat in N2. rewrite mult_INR in N2. replace (2 * n + a + 1)%nat with (S (n + a + n)) by lia.
  set (d := prodl INR (S n) (INR (a + 1 + n))) in *. unfold hc. rewrite C_n. unfold C. replace (n + a + n - n)%nat with (a + n)%nat by lia.
  assert (F : forall k, INR (fact k) <> 0) by apply INR_fact_neq_0. assert (K : INR (S (n + a + n)) <> 0) by (apply not_0_INR; lia).
  assert (D : d = INR (S (n + a + n)) * INR (fact (n + a + n)) / INR (fact (a + n))) by (rewrite <- N2; field; apply F). rewrite D.
  transitivity ((-1) ^ n * (-1) ^ n * / INR (S (n + a + n))); [field; repeat split; auto|]. rewrite <- pow_add. replace (n + n)%nat with (2 * n)%nat by lia. rewrite pow_1_even. ring.
Qed.
(** one dimension *)
Definition dj (n n' a : nat) : R := rsum (S n') (fun s => hc n' a s * tj n a (INR (a + 1 + s))).
Lemma dj_sym n n' a : dj n n' a = dj n' n a.
Proof.
  unfold dj, tj. rewrite (rsum_ext (S n') _ (fun s => rsum (S n) (fun m => hc n' a s * (hc n a m * / (INR m + INR (a + 1 + s)))))) by (intros; symmetry; apply rsum_mul). rewrite rsum_swap. apply rsum_ext. intros m _.
  rewrite <- rsum_mul. apply rsum_ext. intros s _. rewrite <- !plus_INR. replace (s + (a + 1 + m))%nat with (m + (a + 1 + s))%nat by lia. ring.
Qed.
Lemma dj_val n n' a : dj n n' a = if (n =? n')%nat then / INR (2 * n + a + 1) else 0.
Proof.
  assert (Z : forall n n', (n' < n)%nat -> dj n n' a = 0) by (clear n n'; intros n n' H; apply rsum_0; intros s Hs; rewrite tj_zero by lia; ring).
  destruct (Nat.eqb_spec n n') as [<-|N].
  - unfold dj. rewrite (rsum_one (S n) n); [apply tj_top|lia|]. intros s Hs Ns. rewrite tj_zero by lia. ring.
  - destruct (Nat.lt_gt_cases n n') as (L & _). destruct (L N) as [H|H]; [rewrite dj_sym|]; now apply Z.
Qed.

(** *** Integrals of a basis function times a monomial *)
Definition nrm (el : refEl) (m : mode) : mode := let '(p, q, r) := m in match el with Line => (p, 0, 0) | Quad | Tria => (p, q, 0) | _ => (p, q, r) end%nat.
Definition tval (el : refEl) (m e : mode) : R :=
  let '(p, q, r) := m in let '(i, j, k) := e in
  match el with
  | Line => tj p 0 (INR (i + 1))
  | Quad => tj p 0 (INR (i + 1)) * tj q 0 (INR (j + 1))
  | Tria => tj p 0 (INR (i + 1)) * tj q (2 * p + 1) (INR (p + i + j + 2))
  | Hex => tj p 0 (INR (i + 1)) * tj q 0 (INR (j + 1)) * tj r 0 (INR (k + 1))
  | Tet => tj p 0 (INR (i + 1)) * tj q (2 * p + 1) (INR (p + i + j + 2)) * tj r (2 * p + 2 * q + 2) (INR (p + q + i + j + k + 3))
  end.
Lemma prod2 n m f g : rsum n f * rsum m g = rsum n (fun i => rsum m (fun j => f i * g j)).
Proof. rewrite <- rsum_mulr. apply rsum_ext. intros i _. now rewrite rsum_mul. Qed.
Lemma prod3 n m l f g h : rsum n f * rsum m g * rsum l h = rsum n (fun i => rsum m (fun j => rsum l (fun k => f i * g j * h k))).
Proof. rewrite prod2, <- rsum_mulr. apply rsum_ext. intros i _. rewrite <- rsum_mulr. apply rsum_ext. intros j _. now rewrite rsum_mul. Qed.
(** coefficient and exponents of a term of a basis function *)
Definition tc (el : refEl) (m t : mode) : R :=
  let '(p, q, r) := m in let '(i, j, k) := t in
  match el with
  | Line => hc p 0 i | Quad => hc p 0 i * hc q 0 j | Tria => hc p 0 i * hc q (2 * p + 1) j
  | Hex => hc p 0 i * hc q 0 j * hc r 0 k | Tet => hc p 0 i * hc q (2 * p + 1) j * hc r (2 * p + 2 * q + 2) k
  end.
Definition te (el : refEl) (m t : mode) : mode :=
  let '(p, q, r) := m in let '(i, j, k) := t in
  match el with Tria => (i, p - i + j, 0)%nat | Tet => (i, p - i + j, q - j + k)%nat | Line => (i, 0, 0)%nat | Quad => (i, j, 0)%nat | Hex => (i, j, k) end.
Definition msum (el : refEl) (m : mode) (f : mode -> R) : R := let '(p, q, r) := nrm el m in rsum (S p) (fun i => rsum (S q) (fun j => rsum (S r) (fun k => f (i, j, k)))).
Lemma msum_ext el m f g : (forall t, f t = g t) -> msum el m f = msum el m g.
Proof. intros H. unfold msum. destruct (nrm el m) as ((p & q) & r). apply rsum_ext. intros i _. apply rsum_ext. intros j _. apply rsum_ext. intros k _. apply H. Qed.
Lemma phi_sum el m x y z : phi el m x y z = msum el m (fun t => tc el m t * wmon el (te el m t) x y z).
Proof.
  destruct m as ((p & q) & r). destruct el; unfold msum; cbn [nrm phi]; rewrite !hom_sum.
  - apply rsum_ext. intros i _. cbn [rsum tc te wmon]. rewrite pow1. ring.
  - rewrite prod2. apply rsum_ext. intros i _. apply rsum_ext. intros j _. cbn [rsum tc te wmon]. rewrite !pow1. ring.
  - rewrite prod2. apply rsum_ext. intros i _. apply rsum_ext. intros j _. cbn [rsum tc te wmon]. rewrite !pow1, pow_add. replace (1 - y - x) with (1 - x - y) by ring. ring.
  - rewrite prod3. apply rsum_ext. intros i _. apply rsum_ext. intros j _. apply rsum_ext. intros k _. cbn [tc te wmon]. rewrite !pow1. ring.
  - rewrite prod3. apply rsum_ext. intros i _. apply rsum_ext. intros j _. apply rsum_ext. intros k _. cbn [tc te wmon]. rewrite !pow1, !pow_add. replace (1 - y - z - x) with (1 - x - y - z) by ring. replace (1 - z - y) with (1 - y - z) by ring. ring.
Qed.
Definition addE (a b : mode) : mode := let '(i, j, k) := a in let '(i', j', k') := b in (i + i', j + j', k + k')%nat.
Lemma wmon_add el a b x y z : wmon el a x y z * wmon el b x y z = wmon el (addE a b) x y z.
Proof. destruct a as ((i & j) & k), b as ((i' & j') & k'). destruct el; cbn [wmon addE]; rewrite !pow_add; ring. Qed.
Lemma msum_mulr el m c f : msum el m f * c = msum el m (fun t => f t * c).
Proof. unfold msum. destruct (nrm el m) as ((p & q) & r). rewrite <- rsum_mulr. apply rsum_ext. intros i _. rewrite <- rsum_mulr. apply rsum_ext. intros j _. now rewrite <- rsum_mulr. Qed.
Lemma msum_mul el m c f : c * msum el m f = msum el m (fun t => c * f t).
Proof. unfold msum. destruct (nrm el m) as ((p & q) & r). rewrite <- rsum_mul. apply rsum_ext. intros i _. rewrite <- rsum_mul. apply rsum_ext. intros j _. now rewrite <- rsum_mul. Qed.
Lemma intEl_msum el m (f : mode -> R -> R -> R -> R) I : (forall t, intEl el (f t) (I t)) -> intEl el (fun x y z => msum el m (fun t => f t x y z)) (msum el m I).
Proof. intros H. unfold msum. destruct (nrm el m) as ((p & q) & r). apply intEl_sum. intros i _. apply intEl_sum. intros j _. apply intEl_sum. intros k _. apply H. Qed.
Lemma msum_ext_in el m f g : (forall i j k, let '(p, q, r) := nrm el m in (i <= p -> j <= q -> k <= r -> f (i, j, k) = g (i, j, k))%nat) -> msum el m f = msum el m g.
Proof. intros H. unfold msum. destruct (nrm el m) as ((p & q) & r). apply rsum_ext. intros i Hi. apply rsum_ext. intros j Hj. apply rsum_ext. intros k Hk. apply H; lia. Qed.
Lemma tval_sum el m e : tval el m e = msum el m (fun t => tc el m t * imon el (addE (te el m t) e)).
Proof.
  destruct m as ((p & q) & r), e as ((i & j) & k). destruct el; unfold msum; cbn [nrm tval]; unfold tj.
  - apply rsum_ext. intros i' _. cbn [rsum tc te addE imon]. rewrite (plus_INR i). cbn [INR]. rewrite Nat.add_assoc || idtac. replace (i' + i + 1)%nat with (i' + (i + 1))%nat by lia. rewrite !plus_INR. cbn [INR]. ring.
  - rewrite prod2. apply rsum_ext. intros i' _. apply rsum_ext. intros j' _. cbn [rsum tc te addE imon]. rewrite <- !plus_INR. rewrite !Nat.add_assoc. ring.
  - rewrite prod2. apply rsum_ext. intros i' Hi. apply rsum_ext. intros j' Hj. cbn [rsum tc te addE imon]. rewrite <- !plus_INR. replace (i' + i + (p - i' + j' + j) + 2)%nat with (j' + (p + i + j + 2))%nat by lia. rewrite !Nat.add_assoc. ring.
  - rewrite prod3. apply rsum_ext. intros i' _. apply rsum_ext. intros j' _. apply rsum_ext. intros k' _. cbn [tc te addE imon]. rewrite <- !plus_INR. rewrite !Nat.add_assoc. ring.
  - rewrite prod3. apply rsum_ext. intros i' Hi. apply rsum_ext. intros j' Hj. apply rsum_ext. intros k' Hk. cbn [tc te addE imon]. rewrite <- !plus_INR.
    replace (i' + i + (p - i' + j' + j) + (q - j' + k' + k) + 3)%nat with (k' + (p + q + i + j + k + 3))%nat by lia. replace (i' + i + (p - i' + j' + j) + 2)%nat with (j' + (p + i + j + 2))%nat by lia. rewrite !Nat.add_assoc. ring.
Qed.
Lemma int_mon el m e : intEl el (fun x y z => phi el m x y z * wmon el e x y z) (tval el m e).
Proof.
  rewrite tval_sum. apply (intEl_ext el (fun x y z => msum el m (fun t => tc el m t * wmon el (addE (te el m t) e) x y z))).
  - intros x y z. rewrite phi_sum, msum_mulr. apply msum_ext. intros t. rewrite <- wmon_add. ring.
  - apply intEl_msum. intros t. apply intEl_scal, intEl_mon.
Qed.
Definition eqMode (a b : mode) : bool := let '(i, j, k) := a in let '(i', j', k') := b in (i =? i')%nat && (j =? j')%nat && (k =? k')%nat.
Lemma int_phi el m m' : intEl el (fun x y z => phi el m x y z * phi el m' x y z) (msum el m' (fun t => tc el m' t * tval el m (te el m' t))).
Proof.
  apply (intEl_ext el (fun x y z => msum el m' (fun t => tc el m' t * (phi el m x y z * wmon el (te el m' t) x y z)))).
  - intros x y z. rewrite (phi_sum el m'), msum_mul. apply msum_ext. intros t. ring.
  - apply intEl_msum. intros t. apply intEl_scal, int_mon.
Qed.
Lemma orth_val el m m' : msum el m' (fun t => tc el m' t * tval el m (te el m' t)) = if eqMode (nrm el m) (nrm el m') then norm2 el m else 0.
Proof.
  destruct m as ((p & q) & r), m' as ((p' & q') & r'). destruct el; unfold msum; cbn [nrm eqMode norm2].
  - rewrite (rsum_ext _ _ (fun i => hc p' 0 i * tj p 0 (INR (0 + 1 + i)))) by (intros i _; cbn [rsum tc te tval]; replace (i + 1)%nat with (0 + 1 + i)%nat by lia; ring).
    change (dj p p' 0 = if ((p =? p') && (0 =? 0) && (0 =? 0))%nat then / INR (2 * p + 1) else 0). rewrite dj_val, !andb_true_r, Nat.add_0_r. reflexivity.
  - rewrite (rsum_ext _ _ (fun i => rsum (S q') (fun j => hc p' 0 i * tj p 0 (INR (0 + 1 + i)) * (hc q' 0 j * tj q 0 (INR (0 + 1 + j)))))) by (intros i _; apply rsum_ext; intros j _; cbn [rsum tc te tval]; replace (i + 1)%nat with (0 + 1 + i)%nat by lia; replace (j + 1)%nat with (0 + 1 + j)%nat by lia; ring).
    rewrite <- prod2. change (dj p p' 0 * dj q q' 0 = if ((p =? p') && (q =? q') && (0 =? 0))%nat then / INR (2 * p + 1) * / INR (2 * q + 1) else 0). rewrite !dj_val, !andb_true_r, !Nat.add_0_r. destruct (p =? p')%nat, (q =? q')%nat; cbn [andb]; ring.
  - rewrite (rsum_ext _ _ (fun i => rsum (S q') (fun j => hc p' 0 i * tj p 0 (INR (0 + 1 + i)) * (hc q' (2 * p' + 1) j * tj q (2 * p + 1) (INR (p + p' + j + 2))))))
      by (intros i Hi; apply rsum_ext; intros j Hj; cbn [rsum tc te tval]; replace (i + 1)%nat with (0 + 1 + i)%nat by lia; replace (p + i + (p' - i + j) + 2)%nat with (p + p' + j + 2)%nat by lia; ring).
    rewrite <- prod2. set (b := rsum (S q') _). change (rsum (S p') _) with (dj p p' 0). rewrite dj_val. destruct (Nat.eqb_spec p p') as [<-|_]; cbn [andb]; [|ring].
    replace b with (dj q q' (2 * p + 1)) by (apply rsum_ext; intros j _; do 3 f_equal; lia). rewrite dj_val, andb_true_r. destruct (q =? q')%nat; [|ring]. f_equal; f_equal; f_equal; lia.
  - rewrite (rsum_ext _ _ (fun i => rsum (S q') (fun j => rsum (S r') (fun k => hc p' 0 i * tj p 0 (INR (0 + 1 + i)) * (hc q' 0 j * tj q 0 (INR (0 + 1 + j))) * (hc r' 0 k * tj r 0 (INR (0 + 1 + k)))))))
      by (intros i _; apply rsum_ext; intros j _; apply rsum_ext; intros k _; cbn [tc te tval]; replace (i + 1)%nat with (0 + 1 + i)%nat by lia; replace (j + 1)%nat with (0 + 1 + j)%nat by lia; replace (k + 1)%nat with (0 + 1 + k)%nat by lia; ring).
    rewrite <- prod3. change (dj p p' 0 * dj q q' 0 * dj r r' 0 = if ((p =? p') && (q =? q') && (r =? r'))%nat then / INR (2 * p + 1) * / INR (2 * q + 1) * / INR (2 * r + 1) else 0). rewrite !dj_val, !Nat.add_0_r.
    destruct (p =? p')%nat, (q =? q')%nat, (r =? r')%nat; cbn [andb]; ring.
  - rewrite (rsum_ext _ _ (fun i => rsum (S q') (fun j => rsum (S r') (fun k => hc p' 0 i * tj p 0 (INR (0 + 1 + i)) * (hc q' (2 * p' + 1) j * tj q (2 * p + 1) (INR (p + p' + j + 2))) * (hc r' (2 * p' + 2 * q' + 2) k * tj r (2 * p + 2 * q + 2) (INR (p + q + p' + q' + k + 3)))))))
      by (intros i Hi; apply rsum_ext; intros j Hj; apply rsum_ext; intros k Hk; cbn [tc te tval]; replace (i + 1)%nat with (0 + 1 + i)%nat by lia; replace (p + i + (p' - i + j) + 2)%nat with (p + p' + j + 2)%nat by lia;
          replace (p + q + i + (p' - i + j) + (q' - j + k) + 3)%nat with (p + q + p' + q' + k + 3)%nat by lia; ring).
    rewrite <- prod3. set (b := rsum (S q') _). set (c := rsum (S r') _). change (rsum (S p') _) with (dj p p' 0). rewrite dj_val. destruct (Nat.eqb_spec p p') as [<-|_]; cbn [andb]; [|ring].
    replace b with (dj q q' (2 * p + 1)) by (apply rsum_ext; intros j _; do 3 f_equal; lia). rewrite dj_val. destruct (Nat.eqb_spec q q') as [<-|_]; cbn [andb]; [|ring].
    replace c with (dj r r' (2 * p + 2 * q + 2)) by (apply rsum_ext; intros k _; do 3 f_equal; lia). rewrite dj_val. destruct (r =? r')%nat; [|ring]. f_equal; [f_equal; f_equal; f_equal; lia|f_equal; f_equal; lia].
Qed.
Lemma orthogonal el m m' : intEl el (fun x y z => phi el m x y z * phi el m' x y z) (if eqMode (nrm el m) (nrm el m') then norm2 el m else 0).
Proof. rewrite <- orth_val. apply int_phi. Qed.
(** a basis function is orthogonal to all monomials of lower total degree (triangles, tetrahedra, lines) *)
Lemma tval_low el m e : (match el with Quad | Hex => False | _ => True end) -> (deg e < deg (nrm el m))%nat -> tval el m e = 0.
Proof.
  destruct m as ((p & q) & r), e as ((i & j) & k). destruct el; cbn [nrm deg tval]; intros [] H || (intros _ H).
  - replace (i + 1)%nat with (0 + 1 + i)%nat by lia. apply tj_zero. lia.
  - destruct (Nat.lt_ge_cases i p) as [L|L]; [replace (i + 1)%nat with (0 + 1 + i)%nat by lia; rewrite tj_zero by lia; ring|].
    replace (p + i + j + 2)%nat with (2 * p + 1 + 1 + (i + j - p))%nat by lia. rewrite (tj_zero q) by lia. ring.
  - destruct (Nat.lt_ge_cases i p) as [L|L]; [replace (i + 1)%nat with (0 + 1 + i)%nat by lia; rewrite tj_zero by lia; ring|].
    destruct (Nat.lt_ge_cases (i + j - p) q) as [L'|L']; [replace (p + i + j + 2)%nat with (2 * p + 1 + 1 + (i + j - p))%nat by lia; rewrite (tj_zero q) by lia; ring|].
    replace (p + q + i + j + k + 3)%nat with (2 * p + 2 * q + 2 + 1 + (i + j + k - p - q))%nat by lia. rewrite (tj_zero r) by lia. ring.
Qed.
