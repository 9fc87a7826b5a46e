(** Integrals of [BasisSpec]: uniqueness, linearity, monomials; alternating sums of binomial coefficients. *)
From Coq Require Import List ZArith Reals Lra Lia Bool.
From Verif Require Import BasisSpec.
Import ListNotations.
Local Open Scope R_scope.

(** *** Finite sums *)
Fixpoint rsum (n : nat) (f : nat -> R) : R := match n with O => 0 | S n => rsum n f + f n end.
Lemma rsum_ext n f g : (forall i, (i < n)%nat -> f i = g i) -> rsum n f = rsum n g.
Proof. induction n as [|n IH]; intros H; cbn; [reflexivity|]. rewrite IH, H by (intros; try apply H; lia). reflexivity. Qed.
Lemma rsum_0 n f : (forall i, (i < n)%nat -> f i = 0) -> rsum n f = 0.
Proof. induction n as [|n IH]; intros H; cbn; [reflexivity|]. rewrite IH, H by (intros; try apply H; lia). ring. Qed.
Lemma rsum_add n f g : rsum n (fun i => f i + g i) = rsum n f + rsum n g. Proof. induction n as [|n IH]; cbn; [ring|]. rewrite IH. ring. Qed.
Lemma rsum_sub n f g : rsum n (fun i => f i - g i) = rsum n f - rsum n g. Proof. induction n as [|n IH]; cbn; [ring|]. rewrite IH. ring. Qed.
Lemma rsum_mul n c f : rsum n (fun i => c * f i) = c * rsum n f. Proof. induction n as [|n IH]; cbn; [ring|]. rewrite IH. ring. Qed.
Lemma rsum_mulr n c f : rsum n (fun i => f i * c) = rsum n f * c. Proof. induction n as [|n IH]; cbn; [ring|]. rewrite IH. ring. Qed.
Lemma rsum_swap n m f : rsum n (fun i => rsum m (fun j => f i j)) = rsum m (fun j => rsum n (fun i => f i j)).
Proof. induction n as [|n IH]; cbn; [symmetry; now apply rsum_0|]. rewrite IH, <- rsum_add. reflexivity. Qed.
Lemma rsum_one n k f : (k < n)%nat -> (forall i, (i < n)%nat -> i <> k -> f i = 0) -> rsum n f = f k.
Proof.
  induction n as [|n IH]; intros Hk H; [lia|]. cbn. destruct (Nat.eq_dec k n) as [->|N].
  - rewrite rsum_0; [ring|]. intros i Hi. apply H; lia.
  - rewrite IH by (try lia; intros; apply H; lia). rewrite (H n) by lia. ring.
Qed.
Lemma rsum_f_R0 n f : sum_f_R0 f n = rsum (S n) f. Proof. induction n as [|n IH]; cbn; [ring|]. rewrite IH. reflexivity. Qed.
Lemma rsum_S_l n f : rsum (S n) f = f 0%nat + rsum n (fun i => f (S i)). Proof. induction n as [|n IH]; cbn in *; [ring|]. rewrite IH. ring. Qed.

(** *** One dimension *)
Lemma dlim_ext f g x d : (forall t, f t = g t) -> derivable_pt_lim f x d -> derivable_pt_lim g x d.
Proof. intros E H eps He. destruct (H eps He) as (de & Hd). exists de. intros h Hh Hl. rewrite <- !E. now apply Hd. Qed.
Lemma const_of_zero F a b : (forall x, derivable_pt_lim F x 0) -> F a = F b.
Proof.
  intros H. assert (G : forall a b, a < b -> F b = F a).
  { clear a b. intros a b L. destruct (MVT_cor2 F (fun _ => 0) a b L (fun c _ => H c)) as (c & E & _). lra. }
  destruct (Rtotal_order a b) as [L|[->|L]]; [symmetry; now apply G|reflexivity|now apply G].
Qed.
Lemma dint_unique f a b I J : dint f a b I -> dint f a b J -> I = J.
Proof.
  intros (F & HF & ->) (G & HG & ->). assert (E : (fun x => F x - G x) a = (fun x => F x - G x) b).
  { apply (const_of_zero (fun x => F x - G x)). intros x. replace 0 with (f x - f x) by ring. apply (derivable_pt_lim_minus F G); auto. }
  cbn in E. lra.
Qed.
Lemma dint_ext f g a b I : (forall x, f x = g x) -> dint f a b I -> dint g a b I. Proof. intros E (F & HF & ->). exists F. split; [|reflexivity]. intros x. rewrite <- E. apply HF. Qed.
Lemma dint_add f g a b I J : dint f a b I -> dint g a b J -> dint (fun x => f x + g x) a b (I + J).
Proof. intros (F & HF & ->) (G & HG & ->). exists (fun x => F x + G x). split; [|ring]. intros x. now apply (derivable_pt_lim_plus F G). Qed.
Lemma dint_scal c f a b I : dint f a b I -> dint (fun x => c * f x) a b (c * I).
Proof. intros (F & HF & ->). exists (fun x => c * F x). split; [|ring]. intros x. now apply (derivable_pt_lim_scal F). Qed.
Lemma dint_pow c b n : dint (fun x => c * (b - x) ^ n) 0 b (c * (b ^ S n / INR (S n))).
Proof.
  assert (N : INR (S n) <> 0) by (apply not_0_INR; lia). exists (fun x => - c / INR (S n) * (b - x) ^ S n). split.
  - intros x. assert (D : derivable_pt_lim (fun x => (b - x) ^ S n) x (INR (S n) * (b - x) ^ n * (0 - 1))).
    { apply (derivable_pt_lim_comp (fun x => b - x) (fun y => y ^ S n)); [|apply (derivable_pt_lim_pow (b - x) (S n))]. apply (derivable_pt_lim_minus (fun _ => b) id); [apply derivable_pt_lim_const|apply derivable_pt_lim_id]. }
    apply (derivable_pt_lim_scal _ (- c / INR (S n))) in D. replace (- c / INR (S n) * (INR (S n) * (b - x) ^ n * (0 - 1))) with (c * (b - x) ^ n) in D by (field; exact N). exact D.
  - replace (b - b) with 0 by ring. rewrite (pow_i (S n)) by lia. replace (b - 0) with b by ring. field. exact N.
Qed.

(** *** Reference elements *)
Lemma intEl_unique el f I J : intEl el f I -> intEl el f J -> I = J.
Proof.
  destruct el; cbn.
  - apply dint_unique.
  - intros (g & G & H) (g' & G' & H'). apply (dint_unique g 0 1); [exact H|]. apply (dint_ext g'); [|exact H']. intros y. exact (dint_unique _ _ _ _ _ (G' y) (G y)).
  - intros (g & G & H) (g' & G' & H'). apply (dint_unique g 0 1); [exact H|]. apply (dint_ext g'); [|exact H']. intros y. exact (dint_unique _ _ _ _ _ (G' y) (G y)).
  - intros (g & h & G & H & K) (g' & h' & G' & H' & K'). apply (dint_unique h 0 1); [exact K|]. apply (dint_ext h'); [|exact K']. intros z. apply (dint_unique (fun y => g y z) 0 1); [|exact (H z)].
    apply (dint_ext (fun y => g' y z)); [|exact (H' z)]. intros y. exact (dint_unique _ _ _ _ _ (G' y z) (G y z)).
  - intros (g & h & G & H & K) (g' & h' & G' & H' & K'). apply (dint_unique h 0 1); [exact K|]. apply (dint_ext h'); [|exact K']. intros z. apply (dint_unique (fun y => g y z) 0 (1 - z)); [|exact (H z)].
    apply (dint_ext (fun y => g' y z)); [|exact (H' z)]. intros y. exact (dint_unique _ _ _ _ _ (G' y z) (G y z)).
Qed.
Lemma intEl_ext el f g I : (forall x y z, f x y z = g x y z) -> intEl el f I -> intEl el g I.
Proof.
  intros E. destruct el; cbn.
  - apply dint_ext. intros x. apply E.
  - intros (h & H & K). exists h. split; [|exact K]. intros y. apply (dint_ext (fun x => f x y 0)); [intros; apply E|apply H].
  - intros (h & H & K). exists h. split; [|exact K]. intros y. apply (dint_ext (fun x => f x y 0)); [intros; apply E|apply H].
  - intros (h & k & H & K & L). exists h, k. split; [|split; assumption]. intros y z. apply (dint_ext (fun x => f x y z)); [intros; apply E|apply H].
  - intros (h & k & H & K & L). exists h, k. split; [|split; assumption]. intros y z. apply (dint_ext (fun x => f x y z)); [intros; apply E|apply H].
Qed.
Lemma intEl_add el f g I J : intEl el f I -> intEl el g J -> intEl el (fun x y z => f x y z + g x y z) (I + J).
Proof.
  destruct el; cbn.
  - apply dint_add.
  - intros (h & H & K) (h' & H' & K'). exists (fun y => h y + h' y). split; [|now apply dint_add]. intros y. now apply (dint_add (fun x => f x y 0)).
  - intros (h & H & K) (h' & H' & K'). exists (fun y => h y + h' y). split; [|now apply dint_add]. intros y. now apply (dint_add (fun x => f x y 0)).
  - intros (h & k & H & K & L) (h' & k' & H' & K' & L'). exists (fun y z => h y z + h' y z), (fun z => k z + k' z). split; [|split; [|now apply dint_add]].
    + intros y z. now apply (dint_add (fun x => f x y z)).
    + intros z. now apply (dint_add (fun y => h y z)).
  - intros (h & k & H & K & L) (h' & k' & H' & K' & L'). exists (fun y z => h y z + h' y z), (fun z => k z + k' z). split; [|split; [|now apply dint_add]].
    + intros y z. now apply (dint_add (fun x => f x y z)).
    + intros z. now apply (dint_add (fun y => h y z)).
Qed.
Lemma intEl_scal el c f I : intEl el f I -> intEl el (fun x y z => c * f x y z) (c * I).
Proof.
  destruct el; cbn.
  - apply dint_scal.
  - intros (h & H & K). exists (fun y => c * h y). split; [|now apply dint_scal]. intros y. now apply (dint_scal c (fun x => f x y 0)).
  - intros (h & H & K). exists (fun y => c * h y). split; [|now apply dint_scal]. intros y. now apply (dint_scal c (fun x => f x y 0)).
  - intros (h & k & H & K & L). exists (fun y z => c * h y z), (fun z => c * k z). split; [|split; [|now apply dint_scal]].
    + intros y z. now apply (dint_scal c (fun x => f x y z)).
    + intros z. now apply (dint_scal c (fun y => h y z)).
  - intros (h & k & H & K & L). exists (fun y z => c * h y z), (fun z => c * k z). split; [|split; [|now apply dint_scal]].
    + intros y z. now apply (dint_scal c (fun x => f x y z)).
    + intros z. now apply (dint_scal c (fun y => h y z)).
Qed.
(** coordinates in which the integrals of monomials are products: distances to faces *)
Definition wmon (el : refEl) (e : nat * nat * nat) (x y z : R) : R :=
  let '(i, j, k) := e in
  match el with
  | Line => (1 - x) ^ i
  | Quad => (1 - x) ^ i * (1 - y) ^ j
  | Tria => (1 - x - y) ^ i * (1 - y) ^ j
  | Hex => (1 - x) ^ i * (1 - y) ^ j * (1 - z) ^ k
  | Tet => (1 - x - y - z) ^ i * (1 - y - z) ^ j * (1 - z) ^ k
  end.
Definition imon (el : refEl) (e : nat * nat * nat) : R :=
  let '(i, j, k) := e in
  match el with
  | Line => / INR (i + 1)
  | Quad => / INR (i + 1) * / INR (j + 1)
  | Tria => / INR (i + 1) * / INR (i + j + 2)
  | Hex => / INR (i + 1) * / INR (j + 1) * / INR (k + 1)
  | Tet => / INR (i + 1) * / INR (i + j + 2) * / INR (i + j + k + 3)
  end.
Lemma intEl_mon el e : intEl el (wmon el e) (imon el e).
Proof.
  destruct e as ((i & j) & k). destruct el; cbn [intEl wmon imon].
  - pose proof (dint_pow 1 1 i) as D. rewrite pow1 in D. replace (/ INR (i + 1)) with (1 * (1 / INR (S i))) by (rewrite Nat.add_1_r; unfold Rdiv; ring). apply (dint_ext _ _ _ _ _ (fun x => Rmult_1_l ((1 - x) ^ i)) D).
  - exists (fun y => / INR (i + 1) * (1 - y) ^ j). split.
    + intros y. pose proof (dint_pow ((1 - y) ^ j) 1 i) as D. rewrite pow1 in D. replace (/ INR (i + 1) * (1 - y) ^ j) with ((1 - y) ^ j * (1 / INR (S i))) by (rewrite Nat.add_1_r; unfold Rdiv; ring).
      refine (dint_ext _ _ _ _ _ _ D). intros x. ring.
    + pose proof (dint_pow (/ INR (i + 1)) 1 j) as D. rewrite pow1 in D. rewrite (Nat.add_1_r j). replace (/ INR (S j)) with (1 / INR (S j)) by (unfold Rdiv; ring). exact D.
  - exists (fun y => / INR (i + 1) * (1 - y) ^ (S i + j)). split.
    + intros y. pose proof (dint_pow ((1 - y) ^ j) (1 - y) i) as D. replace (/ INR (i + 1) * (1 - y) ^ (S i + j)) with ((1 - y) ^ j * ((1 - y) ^ S i / INR (S i))) by (rewrite Nat.add_1_r, pow_add; unfold Rdiv; ring).
      refine (dint_ext _ _ _ _ _ _ D). intros x. replace (1 - y - x) with (1 - x - y) by ring. ring.
    + pose proof (dint_pow (/ INR (i + 1)) 1 (S i + j)) as D. rewrite pow1 in D. replace (i + j + 2)%nat with (S (S i + j)) by lia. replace (/ INR (S (S i + j))) with (1 / INR (S (S i + j))) by (unfold Rdiv; ring). exact D.
  - exists (fun y z => / INR (i + 1) * (1 - y) ^ j * (1 - z) ^ k), (fun z => / INR (i + 1) * / INR (j + 1) * (1 - z) ^ k). split; [|split].
    + intros y z. pose proof (dint_pow ((1 - y) ^ j * (1 - z) ^ k) 1 i) as D. rewrite pow1 in D. replace (/ INR (i + 1) * (1 - y) ^ j * (1 - z) ^ k) with ((1 - y) ^ j * (1 - z) ^ k * (1 / INR (S i))) by (rewrite Nat.add_1_r; unfold Rdiv; ring).
      refine (dint_ext _ _ _ _ _ _ D). intros x. ring.
    + intros z. pose proof (dint_pow (/ INR (i + 1) * (1 - z) ^ k) 1 j) as D. rewrite pow1 in D. rewrite (Nat.add_1_r j). replace (/ INR (i + 1) * / INR (S j) * (1 - z) ^ k) with (/ INR (i + 1) * (1 - z) ^ k * (1 / INR (S j))) by (unfold Rdiv; ring).
      refine (dint_ext _ _ _ _ _ _ D). intros y. ring.
    + pose proof (dint_pow (/ INR (i + 1) * / INR (j + 1)) 1 k) as D. rewrite pow1 in D. rewrite (Nat.add_1_r k). replace (/ INR (S k)) with (1 / INR (S k)) by (unfold Rdiv; ring). exact D.
  - exists (fun y z => / INR (i + 1) * (1 - y - z) ^ (S i + j) * (1 - z) ^ k), (fun z => / INR (i + 1) * / INR (i + j + 2) * (1 - z) ^ (S (S i + j) + k)). split; [|split].
    + intros y z. pose proof (dint_pow ((1 - y - z) ^ j * (1 - z) ^ k) (1 - y - z) i) as D.
      replace (/ INR (i + 1) * (1 - y - z) ^ (S i + j) * (1 - z) ^ k) with ((1 - y - z) ^ j * (1 - z) ^ k * ((1 - y - z) ^ S i / INR (S i))) by (rewrite Nat.add_1_r, pow_add; unfold Rdiv; ring).
      refine (dint_ext _ _ _ _ _ _ D). intros x. replace (1 - y - z - x) with (1 - x - y - z) by ring. ring.
    + intros z. pose proof (dint_pow (/ INR (i + 1) * (1 - z) ^ k) (1 - z) (S i + j)) as D. replace (i + j + 2)%nat with (S (S i + j)) by lia.
      replace (/ INR (i + 1) * / INR (S (S i + j)) * (1 - z) ^ (S (S i + j) + k)) with (/ INR (i + 1) * (1 - z) ^ k * ((1 - z) ^ S (S i + j) / INR (S (S i + j)))) by (rewrite (pow_add _ (S (S i + j))); unfold Rdiv; ring).
      refine (dint_ext _ _ _ _ _ _ D). intros y. replace (1 - z - y) with (1 - y - z) by ring. ring.
    + pose proof (dint_pow (/ INR (i + 1) * / INR (i + j + 2)) 1 (S (S i + j) + k)) as D. rewrite pow1 in D. replace (i + j + k + 3)%nat with (S (S (S i + j) + k)) by lia.
      replace (/ INR (S (S (S i + j) + k))) with (1 / INR (S (S (S i + j) + k))) by (unfold Rdiv; ring). exact D.
Qed.
Lemma intEl_zero el : intEl el (fun _ _ _ => 0) 0.
Proof. pose proof (intEl_scal el 0 _ _ (intEl_mon el (0, 0, 0)%nat)) as H. rewrite Rmult_0_l in H. refine (intEl_ext el _ _ _ _ H). intros. ring. Qed.
Lemma intEl_sum el n (f : nat -> R -> R -> R -> R) I : (forall i, (i < n)%nat -> intEl el (f i) (I i)) -> intEl el (fun x y z => rsum n (fun i => f i x y z)) (rsum n I).
Proof. induction n as [|n IH]; intros H; cbn [rsum]; [apply intEl_zero|]. apply (intEl_add el (fun x y z => rsum n (fun i => f i x y z))); [apply IH; intros; apply H; lia|apply H; lia]. Qed.

(** *** Alternating sums *)
Fixpoint alt (n : nat) (f : nat -> R) : R := match n with O => f 0%nat | S n => alt n (fun m => f m - f (S m)) end.
Lemma alt_ext n f g : (forall m, f m = g m) -> alt n f = alt n g.
Proof. revert f g. induction n as [|n IH]; intros f g H; cbn; [apply H|]. apply IH. intros m. now rewrite !H. Qed.
Lemma alt_add n f g : alt n (fun m => f m + g m) = alt n f + alt n g.
Proof. revert f g. induction n as [|n IH]; intros f g; cbn; [reflexivity|]. rewrite <- IH. apply alt_ext. intros. ring. Qed.
Lemma alt_scal n c f : alt n (fun m => c * f m) = c * alt n f.
Proof. revert f. induction n as [|n IH]; intros f; cbn; [reflexivity|]. rewrite <- IH. apply alt_ext. intros. ring. Qed.
Lemma C_0 n : C n 0 = 1. Proof. unfold C. rewrite Nat.sub_0_r. cbn. field. apply INR_fact_neq_0. Qed.
Lemma C_n n : C n n = 1. Proof. unfold C. rewrite Nat.sub_diag. cbn. field. apply INR_fact_neq_0. Qed.
Lemma alt_C n f : alt n f = rsum (S n) (fun m => C n m * (-1) ^ m * f m).
Proof.
  revert f. induction n as [|n IH]; intros f; [cbn; rewrite C_0; ring|]. cbn [alt]. rewrite IH.
  transitivity (rsum (S n) (fun m => C n m * (-1) ^ m * f m) - rsum (S n) (fun m => C n m * (-1) ^ m * f (S m))); [rewrite <- rsum_sub; apply rsum_ext; intros; ring|].
  rewrite (rsum_S_l n (fun m => C n m * (-1) ^ m * f m)), (rsum_S_l (S n) (fun m => C (S n) m * (-1) ^ m * f m)). cbn [rsum]. rewrite !C_0, !C_n.
  replace (rsum n (fun i => C (S n) (S i) * (-1) ^ S i * f (S i))) with (rsum n (fun i => C n (S i) * (-1) ^ S i * f (S i)) - rsum n (fun i => C n i * (-1) ^ i * f (S i))).
  - cbn [pow]. ring.
  - rewrite <- rsum_sub. apply rsum_ext. intros i Hi. rewrite <- (pascal n i Hi). cbn [pow]. ring.
Qed.
(** polynomials of degree less than d: the d-th differences vanish *)
Fixpoint pd (d : nat) (f : nat -> R) : Prop := match d with O => forall m, f m = 0 | S d => pd d (fun m => f m - f (S m)) end.
Lemma pd_ext d f g : (forall m, f m = g m) -> pd d f -> pd d g.
Proof. revert f g. induction d as [|d IH]; intros f g H; cbn; [intros Z m; now rewrite <- H|]. apply IH. intros m. now rewrite !H. Qed.
Lemma pd_alt d f : pd d f -> alt d f = 0. Proof. revert f. induction d as [|d IH]; intros f H; cbn in *; [apply H|now apply IH]. Qed.
Lemma pd_sub d f g : pd d f -> pd d g -> pd d (fun m => f m - g m).
Proof. revert f g. induction d as [|d IH]; intros f g F G; cbn in *; [intros m; rewrite F, G; ring|]. eapply pd_ext; [|apply (IH _ _ F G)]. intros m. cbn. ring. Qed.
Lemma pd_shift d f : pd d f -> pd d (fun m => f (S m)).
Proof. revert f. induction d as [|d IH]; intros f F; cbn in *; [auto|]. exact (IH _ F). Qed.
Lemma pd_mul d f b : pd d f -> pd (S d) (fun m => f m * (INR m + b)).
Proof.
  revert f. induction d as [|d IH]; intros f F.
  - cbn in *. intros m. rewrite !F. ring.
  - cbn [pd] in F. change (pd (S d) (fun m => f m * (INR m + b) - f (S m) * (INR (S m) + b))). apply (pd_ext (S d) (fun m => (f m - f (S m)) * (INR m + b) - f (S m))); [intros m; rewrite S_INR; ring|].
    apply pd_sub; [now apply IH|]. exact (pd_shift (S d) f F).
Qed.
Lemma pd_S d f : pd d f -> pd (S d) f.
Proof. revert f. induction d as [|d IH]; intros f F; cbn in *; [intros m; rewrite !F; ring|]. apply IH, F. Qed.
Lemma pd_le d e f : (d <= e)%nat -> pd d f -> pd e f. Proof. induction 1; auto using pd_S. Qed.
(** products of linear factors *)
Fixpoint prodl (b : nat -> R) (k : nat) (x : R) : R := match k with O => 1 | S k => prodl b k x * (x + b k) end.
Lemma prodl_pd b k : pd (S k) (fun m => prodl b k (INR m)).
Proof. induction k as [|k IH]; [cbn; intros; ring|]. cbn [prodl]. now apply (pd_mul (S k)). Qed.
Lemma alt_inv n x : 0 < x -> alt n (fun m => / (INR m + x)) = INR (fact n) / prodl INR (S n) x.
Proof.
  revert x. induction n as [|n IH]; intros x Hx; [cbn; field; lra|]. cbn [alt].
  assert (P : forall k t, 0 < t -> prodl INR k t <> 0) by (induction k as [|k IHk]; intros t Ht; cbn; [lra|]; apply Rmult_integral_contrapositive_currified; [now apply IHk|]; pose proof (pos_INR k); lra).
  assert (L : forall k t, prodl INR (S k) t = t * prodl INR k (t + 1)) by (induction k as [|k IHk]; intros t; [cbn; ring|]; change (prodl INR (S (S k)) t) with (prodl INR (S k) t * (t + INR (S k))); rewrite IHk; cbn [prodl]; rewrite S_INR; ring).
  transitivity (alt n (fun m => / (INR m + x)) - alt n (fun m => / (INR m + (x + 1)))).
  - rewrite <- (Ropp_involutive (alt n (fun m => / (INR m + (x + 1))))). unfold Rminus. rewrite Ropp_involutive. replace (- alt n (fun m => / (INR m + (x + 1)))) with (-1 * alt n (fun m => / (INR m + (x + 1)))) by ring.
    rewrite <- alt_scal, <- alt_add. apply alt_ext. intros m. rewrite S_INR. replace (INR m + 1 + x) with (INR m + (x + 1)) by ring. ring.
  - rewrite !IH by lra. rewrite (L (S n) x). change (prodl INR (S n) (x + 1)) with (prodl INR n (x + 1) * (x + 1 + INR n)). rewrite (L n x). change (fact (S n)) with (S n * fact n)%nat. rewrite mult_INR, S_INR. pose proof (P n (x + 1) ltac:(lra)). pose proof (pos_INR n). field. repeat split; lra.
Qed.
(** products of at most n linear factors over a linear one: partial fractions *)
Lemma alt_frac n b k x : 0 < x -> (k <= n)%nat -> alt n (fun m => prodl b k (INR m) * / (INR m + x)) = prodl b k (- x) * (INR (fact n) / prodl INR (S n) x).
Proof.
  intros Hx. induction k as [|k IH]; intros Hk.
  - change (prodl b 0 (- x)) with 1. rewrite Rmult_1_l, <- (alt_inv n x Hx). apply alt_ext. intros. cbn. ring.
  - transitivity (alt n (fun m => prodl b k (INR m) + (b k - x) * (prodl b k (INR m) * / (INR m + x)))).
    + apply alt_ext. intros m. cbn [prodl]. pose proof (pos_INR m). field. lra.
    + change (prodl b (S k) (- x)) with (prodl b k (- x) * (- x + b k)). rewrite alt_add, alt_scal, IH by lia. rewrite (pd_alt n); [ring|]. apply (pd_le (S k)); [lia|]. apply prodl_pd.
Qed.
