(** Basis functions as EDGEpre derives these (tools/edge_pre/edge_pre/dg/basis). *)
From Coq Require Import List ZArith Reals Lra Lia Bool.
From Verif Require Import BasisSpec.
Import ListNotations.
Local Open Scope R_scope.

(** Line.py 34-47 (gen): legendre( de, 2*xi-1 ); the Legendre polynomials are the Jacobi polynomials P_n^(0,0) *)
Definition preLine (de : nat) (xi : R) : R := jacobi de 0 (2 * xi - 1).
(** Tria.py 50-63: [psiA * psiB], collapsed coordinates inserted, then the unit triangle's coordinates.  Simplification: sympy.simplify and sympy.cancel (65-69) keep the function *)
Definition preTria (p q : nat) (x1 x2 : R) : R :=
  let xi1 := 2 * x1 - 1 in let xi2 := 2 * x2 - 1 in let eta1 := 2 * (1 + xi1) / (1 - xi2) - 1 in let eta2 := xi2 in
  let psiA := jacobi p 0 eta1 in let psiB := ((1 - eta2) / 2) ^ p * jacobi q (2 * p + 1) eta2 in psiA * psiB.
(** Tet.py 46-67 *)
Definition preTet (p1 p2 p3 : nat) (x1 x2 x3 : R) : R :=
  let xi1 := 2 * x1 - 1 in let xi2 := 2 * x2 - 1 in let xi3 := 2 * x3 - 1 in
  let eta1 := 2 * (1 + xi1) / (- xi2 - xi3) - 1 in let eta2 := 2 * (1 + xi2) / (1 - xi3) - 1 in let eta3 := xi3 in
  let psiA := jacobi p1 0 eta1 in let psiB := ((1 - eta2) / 2) ^ p1 * jacobi p2 (2 * p1 + 1) eta2 in
  let psiC := ((1 - eta3) / 2) ^ (p1 + p2) * jacobi p3 (2 * p1 + 2 * p2 + 2) eta3 in psiA * psiB * psiC.
(** Tria.py 47-57: loops over the degree, p and q; Tet.py 43-53; Quad.py 42-47, Hex.py 42-49: tensor products *)
Definition rng (n : nat) : list nat := seq 0 n.
Definition genLine (deg : nat) : list (R -> R -> R -> R) := map (fun de x1 _ _ => preLine de x1) (rng (deg + 1)).
Definition genTria (deg : nat) : list (R -> R -> R -> R) :=
  flat_map (fun de => flat_map (fun p => flat_map (fun q => if (p + q =? de)%nat then [fun x1 x2 _ => preTria p q x1 x2] else []) (rng (de + 1))) (rng (de + 1))) (rng (deg + 1)).
Definition genTet (deg : nat) : list (R -> R -> R -> R) :=
  flat_map (fun de => flat_map (fun p1 => flat_map (fun p2 => flat_map (fun p3 => if (p1 + p2 + p3 =? de)%nat then [preTet p1 p2 p3] else [])
    (rng (de + 1))) (rng (de + 1))) (rng (de + 1))) (rng (deg + 1)).
Definition genQuad (deg : nat) : list (R -> R -> R -> R) :=
  flat_map (fun d2 => map (fun d1 x1 x2 _ => preLine d1 x1 * preLine d2 x2) (rng (deg + 1))) (rng (deg + 1)).
Definition genHex (deg : nat) : list (R -> R -> R -> R) :=
  flat_map (fun d3 => flat_map (fun d2 => map (fun d1 x1 x2 x3 => preLine d1 x1 * preLine d2 x2 * preLine d3 x3) (rng (deg + 1))) (rng (deg + 1))) (rng (deg + 1)).
Definition gen (el : refEl) (deg : nat) : list (R -> R -> R -> R) := match el with Line => genLine deg | Quad => genQuad deg | Tria => genTria deg | Hex => genHex deg | Tet => genTet deg end.

(** *** EDGEpre's functions and the orthogonal polynomials *)
Lemma pow_nz v n m : v <> 0 -> (m <= n)%nat -> v ^ n * / v ^ m = v ^ (n - m).
Proof. intros H L. replace n with ((n - m) + m)%nat at 1 by lia. rewrite pow_add. rewrite Rmult_assoc, Rinv_r by now apply pow_nonzero. ring. Qed.
Lemma hom_jacobi n a u v : v <> 0 -> hom n a u v = v ^ n * jacobi n a (2 * u / v - 1).
Proof.
  intros H. unfold hom, jacobi. rewrite scal_sum. apply sum_eq. intros m Hm. replace ((2 * u / v - 1 - 1) / 2) with ((u - v) * / v) by (field; exact H).
  rewrite Rpow_mult_distr, pow_inv, <- (pow_nz v n m H Hm). ring.
Qed.
Lemma preLine_ok de x : preLine de x = hom de 0 x 1.
Proof. unfold preLine. rewrite (hom_jacobi de 0 x 1) by lra. rewrite pow1. replace (2 * x / 1 - 1) with (2 * x - 1) by field. ring. Qed.
Lemma preTria_ok p q x y : 1 - y <> 0 -> preTria p q x y = hom p 0 x (1 - y) * hom q (2 * p + 1) y 1.
Proof.
  intros H. unfold preTria. cbv zeta. rewrite (hom_jacobi p 0 x (1 - y) H), (hom_jacobi q _ y 1) by lra. rewrite pow1.
  replace (2 * (1 + (2 * x - 1)) / (1 - (2 * y - 1)) - 1) with (2 * x / (1 - y) - 1) by (field; split; lra). replace ((1 - (2 * y - 1)) / 2) with (1 - y) by field. replace (2 * y / 1 - 1) with (2 * y - 1) by field. ring.
Qed.
Lemma preTet_ok p q r x y z : 1 - y - z <> 0 -> 1 - z <> 0 -> preTet p q r x y z = hom p 0 x (1 - y - z) * hom q (2 * p + 1) y (1 - z) * hom r (2 * p + 2 * q + 2) z 1.
Proof.
  intros H H'. unfold preTet. cbv zeta. rewrite (hom_jacobi p 0 x (1 - y - z) H), (hom_jacobi q _ y (1 - z) H'), (hom_jacobi r _ z 1) by lra. rewrite pow1.
  replace (2 * (1 + (2 * x - 1)) / (- (2 * y - 1) - (2 * z - 1)) - 1) with (2 * x / (1 - y - z) - 1) by (field; split; lra).
  replace (2 * (1 + (2 * y - 1)) / (1 - (2 * z - 1)) - 1) with (2 * y / (1 - z) - 1) by (field; split; lra).
  replace ((1 - (2 * y / (1 - z) - 1)) / 2) with ((1 - y - z) * / (1 - z)) by (field; exact H'). replace ((1 - (2 * z - 1)) / 2) with (1 - z) by field. replace (2 * z / 1 - 1) with (2 * z - 1) by field.
  rewrite Rpow_mult_distr, pow_add. assert (N : (1 - z) ^ p <> 0) by now apply pow_nonzero. rewrite pow_inv. field. exact N.
Qed.
Definition preOf (el : refEl) (m : mode) (x y z : R) : R :=
  let '(p, q, r) := m in match el with Line => preLine p x | Quad => preLine p x * preLine q y | Tria => preTria p q x y | Hex => preLine p x * preLine q y * preLine r z | Tet => preTet p q r x y z end.
Lemma pick {A} (f : nat -> A) s de : flat_map (fun q => if (s + q =? de)%nat then [f q] else []) (rng (de + 1)) = if (s <=? de)%nat then [f (de - s)%nat] else [].
Proof.
  unfold rng. rewrite Nat.add_1_r. assert (G : forall n a, flat_map (fun q => if (s + q =? de)%nat then [f q] else []) (seq a n) = if ((s + a <=? de) && (de <? s + a + n))%nat then [f (de - s)%nat] else []).
  { induction n as [|n IH]; intros a; cbn [seq flat_map].
    - rewrite Nat.add_0_r. destruct (Nat.leb_spec (s + a) de), (Nat.ltb_spec de (s + a)); cbn; try reflexivity. lia.
    - rewrite IH. destruct (Nat.eqb_spec (s + a) de) as [E|E].
      + destruct (Nat.leb_spec (s + S a) de); [lia|]. destruct (Nat.leb_spec (s + a) de); [|lia]. destruct (Nat.ltb_spec de (s + a + S n)); [|lia]. cbn. do 2 f_equal. lia.
      + destruct (Nat.leb_spec (s + S a) de), (Nat.leb_spec (s + a) de), (Nat.ltb_spec de (s + S a + n)), (Nat.ltb_spec de (s + a + S n)); try lia; reflexivity. }
  rewrite G, Nat.add_0_r. destruct (Nat.leb_spec s de); [|reflexivity]. destruct (Nat.ltb_spec de (s + S de)); [reflexivity|lia].
Qed.
Lemma flat_map_ext_in {A B} (f g : A -> list B) l : (forall a, In a l -> f a = g a) -> flat_map f l = flat_map g l.
Proof. induction l as [|a l IH]; intros H; cbn; [reflexivity|]. rewrite (H a) by now left. rewrite IH; [reflexivity|]. intros b Hb. apply H. now right. Qed.
Lemma flat_map_single {A B} (f : A -> B) l : flat_map (fun a => [f a]) l = map f l. Proof. induction l; cbn; congruence. Qed.
Lemma map_flat_map {A B D} (f : B -> D) (g : A -> list B) l : map f (flat_map g l) = flat_map (fun a => map f (g a)) l.
Proof. induction l; cbn; [reflexivity|]. rewrite map_app. congruence. Qed.
Lemma trunc {A} (f : nat -> A) k n : (k <= n)%nat -> flat_map (fun q => if (q <=? k)%nat then [f q] else []) (seq 0 (S n)) = map f (seq 0 (S k)).
Proof.
  intros H. replace (S n) with (S k + (n - k))%nat by lia. rewrite seq_app, flat_map_app. rewrite (flat_map_ext_in _ (fun q => [f q])).
  - rewrite flat_map_single. rewrite (flat_map_ext_in _ (fun _ => [])); [|intros a Ha%in_seq; destruct (Nat.leb_spec a k); [lia|reflexivity]]. replace (flat_map _ _) with (@nil A); [apply app_nil_r|]. induction (seq (0 + S k) (n - k)); cbn; congruence.
  - intros a Ha%in_seq. destruct (Nat.leb_spec a k); [reflexivity|lia].
Qed.
Lemma gen_modes el deg : gen el deg = map (preOf el) (modes el (S deg)).
Proof.
  destruct el; cbn [gen]; unfold modes; rewrite map_flat_map; rewrite <- (Nat.add_1_r deg).
  - unfold genLine, rng. rewrite <- flat_map_single. reflexivity.
  - unfold genQuad, rng. apply flat_map_ext_in. intros d2 _. cbn [level]. rewrite map_map. reflexivity.
  - unfold genTria, rng. apply flat_map_ext_in. intros de _. cbn [level]. rewrite map_map, <- flat_map_single. rewrite <- (Nat.add_1_r de). apply flat_map_ext_in. intros p Hp%in_seq.
    etransitivity; [apply (pick (fun q x1 x2 _ => preTria p q x1 x2))|]. destruct (Nat.leb_spec p de); [reflexivity|lia].
  - unfold genHex, rng. apply flat_map_ext_in. intros d3 _. cbn [level]. rewrite map_flat_map. apply flat_map_ext_in. intros d2 _. rewrite map_map. reflexivity.
  - unfold genTet, rng. apply flat_map_ext_in. intros de _. cbn [level]. rewrite map_flat_map. rewrite <- (Nat.add_1_r de). apply flat_map_ext_in. intros p Hp%in_seq.
    rewrite map_map, <- (trunc (fun q => preOf Tet (p, q, (de - p - q)%nat)) (de - p) de) by lia. rewrite <- (Nat.add_1_r de). apply flat_map_ext_in. intros q _.
    etransitivity; [apply (pick (fun r => preTet p q r))|]. destruct (Nat.leb_spec (p + q) de), (Nat.leb_spec q (de - p)); try lia; [|reflexivity]. cbn [preOf]. now rewrite Nat.sub_add_distr.
Qed.
