From Coq Require Import List ZArith Reals Lra Lia Bool FunctionalExtensionality.
From Verif Require Import Util BasisSpec BasisInt BasisOrth BasisSpan Basis EdgePreM EdgePreP Qpts QptsSpec.
From Verif Require Mapping Comm.
Import ListNotations.
Local Open Scope R_scope.

(** *** Sums over lists *)
Definition lsum {A} (l : list A) (f : A -> R) : R := fold_right Rplus 0 (map f l).
Lemma lsum_ext {A} (l : list A) f g : (forall a, In a l -> f a = g a) -> lsum l f = lsum l g.
Proof. unfold lsum. induction l as [|a l IH]; intros H; cbn; [reflexivity|]. rewrite (H a) by now left. rewrite IH; [reflexivity|]. intros; apply H; now right. Qed.
Lemma lsum_app {A} (l m : list A) f : lsum (l ++ m) f = lsum l f + lsum m f. Proof. unfold lsum. induction l as [|a l IH]; cbn; [ring|]. rewrite IH. ring. Qed.
Lemma lsum_map {A B} (h : A -> B) l f : lsum (map h l) f = lsum l (fun a => f (h a)). Proof. unfold lsum. now rewrite map_map. Qed.
Lemma lsum_flat {A B} (h : A -> list B) l f : lsum (flat_map h l) f = lsum l (fun a => lsum (h a) f).
Proof. induction l as [|a l IH]; cbn [flat_map]; [reflexivity|]. rewrite lsum_app, IH. reflexivity. Qed.
Lemma lsum_add {A} (l : list A) f g : lsum l (fun a => f a + g a) = lsum l f + lsum l g. Proof. unfold lsum. induction l as [|a l IH]; cbn; [ring|]. rewrite IH. ring. Qed.
Lemma lsum_mul {A} (l : list A) c f : lsum l (fun a => c * f a) = c * lsum l f. Proof. unfold lsum. induction l as [|a l IH]; cbn; [ring|]. rewrite IH. ring. Qed.
Lemma lsum_mulr {A} (l : list A) c f : lsum l (fun a => f a * c) = lsum l f * c. Proof. unfold lsum. induction l as [|a l IH]; cbn; [ring|]. rewrite IH. ring. Qed.
Lemma lsum_0 {A} (l : list A) : lsum l (fun _ => 0) = 0. Proof. unfold lsum. induction l as [|a l IH]; cbn; [ring|]. rewrite IH. ring. Qed.
Lemma lsum_seq n f : lsum (seq 0 n) f = rsum n f.
Proof. induction n as [|n IH]; [reflexivity|]. rewrite seq_S, lsum_app, IH. cbn. ring. Qed.
Lemma rsum_rev n f : rsum n (fun i => f (n - S i)%nat) = rsum n f.
Proof. induction n as [|n IH]; [reflexivity|]. rewrite rsum_S_l. cbn [Nat.sub]. rewrite Nat.sub_0_r. cbn [rsum]. rewrite <- IH. rewrite Rplus_comm. reflexivity. Qed.

(** *** The one-dimensional rule *)
Definition g1 (gl : nat -> nat -> R * R) (n : nat) : list (R * R) := map (fun qp => let '(x, w) := gl n (n - qp)%nat in ((x + 1) * (1 / 2), w * (1 / 2))) (seq 0 n).
Lemma gauss_ok gl n : (0 < n)%nat -> gaussLegendre gl n = Ok (g1 gl n).
Proof. intros H. unfold gaussLegendre. destruct (Nat.ltb_spec 0 n); [reflexivity|lia]. Qed.
Lemma g1_len gl n : length (g1 gl n) = n. Proof. unfold g1. now rewrite map_length, seq_length. Qed.
Lemma g1_in gl n p : isGauss gl n -> In p (g1 gl n) -> 0 < fst p < 1.
Proof. intros (H & _) I. apply in_map_iff in I. destruct I as (k & <- & I). apply in_seq in I. specialize (H (n - k)%nat ltac:(lia)). destruct (gl n (n - k)%nat) as (x & w). cbn in *. lra. Qed.
Lemma ex_pow gl n : isGauss gl n -> forall m j, (j + m < 2 * n)%nat ->
  dint (fun x => x ^ j * ((1 - x) / 2) ^ m) (-1) 1 (rsum n (fun k => snd (gl n (S k)) * (fst (gl n (S k)) ^ j * ((1 - fst (gl n (S k))) / 2) ^ m))).
Proof.
  intros (_ & G). induction m as [|m IH]; intros j H.
  - eapply dint_ext; [|replace (rsum _ _) with (rsum n (fun k => snd (gl n (S k)) * fst (gl n (S k)) ^ j)); [apply G; lia|]]; [intros x; cbn; ring|]. apply rsum_ext. intros. cbn. ring.
  - pose proof (dint_add _ _ _ _ _ _ (dint_scal (1 / 2) _ _ _ _ (IH j ltac:(lia))) (dint_scal (- (1 / 2)) _ _ _ _ (IH (S j) ltac:(lia)))) as A.
    rewrite <- !rsum_mul, <- rsum_add in A. eapply dint_ext; [|replace (rsum _ _) with (rsum n (fun k => 1 / 2 * (snd (gl n (S k)) * (fst (gl n (S k)) ^ j * ((1 - fst (gl n (S k))) / 2) ^ m)) + - (1 / 2) * (snd (gl n (S k)) * (fst (gl n (S k)) ^ S j * ((1 - fst (gl n (S k))) / 2) ^ m)))); [exact A|]].
    + intros x. cbn. field.
    + apply rsum_ext. intros. cbn. field.
Qed.
Lemma pow_int m : dint (fun x => x ^ 0 * ((1 - x) / 2) ^ m) (-1) 1 (2 * / INR (S m)).
Proof.
  assert (N : INR (S m) <> 0) by (apply not_0_INR; lia).
  exists (fun x => - (2 / INR (S m)) * ((1 - x) / 2) ^ S m). split.
  - intros x. enough (X : derivable_pt_lim (fun x => - (2 / INR (S m)) * ((1 - x) / 2) ^ S m) x (- (2 / INR (S m)) * (INR (S m) * ((1 - x) / 2) ^ m * (- (1 / 2))))).
    { replace (x ^ 0 * ((1 - x) / 2) ^ m) with (- (2 / INR (S m)) * (INR (S m) * ((1 - x) / 2) ^ m * (- (1 / 2)))); [exact X|]. cbn [pow]. field. exact N. }
    apply (derivable_pt_lim_scal (fun x => ((1 - x) / 2) ^ S m)). apply (derivable_pt_lim_comp (fun x => (1 - x) / 2) (fun u => u ^ S m)).
    + apply (dlim_ext (fun t => - (1 / 2) * t + 1 / 2)); [intros; field|].
      assert (X : derivable_pt_lim (fun t => - (1 / 2) * t + 1 / 2) x (- (1 / 2) * 1 + 0)).
      { apply (derivable_pt_lim_plus (fun t => - (1 / 2) * t) (fun _ => 1 / 2)); [|apply derivable_pt_lim_const]. apply (derivable_pt_lim_scal id). apply derivable_pt_lim_id. }
      replace (- (1 / 2) * 1 + 0) with (- (1 / 2)) in X by ring. exact X.
    + apply derivable_pt_lim_pow.
  - replace ((1 - 1) / 2) with 0 by field. replace ((1 - -1) / 2) with 1 by field. rewrite pow_i by lia. rewrite pow1. field. exact N.
Qed.
Lemma g1_mon gl n m : isGauss gl n -> (m < 2 * n)%nat -> lsum (g1 gl n) (fun p => snd p * (1 - fst p) ^ m) = / INR (m + 1).
Proof.
  intros G H. pose proof (dint_unique _ _ _ _ _ (ex_pow gl n G m 0 ltac:(lia)) (pow_int m)) as E. rewrite Nat.add_1_r.
  unfold g1. rewrite lsum_map, lsum_seq. rewrite <- rsum_rev. apply (Rmult_eq_reg_l 2); [|lra]. rewrite <- E, <- rsum_mul. apply rsum_ext. intros i Hi.
  replace (n - (n - S i))%nat with (S i) by lia. destruct (gl n (S i)) as (x & w). cbn [fst snd pow]. replace (1 - (x + 1) * (1 / 2)) with ((1 - x) / 2) by field. field.
Qed.

(** *** The rules of the reference elements *)
Definition refPts (gl : nat -> nat -> R * R) (el : refEl) (n : nat) : list qpt :=
  let ps := g1 gl n in
  match el with
  | Line => map (fun p => (fst p, 0, 0, snd p)) ps
  | Quad => flat_map (fun p1 => map (fun p2 => (fst p2, fst p1, 0, snd p1 * snd p2)) ps) ps
  | Tria => flat_map (fun p1 => map (fun p2 => (fst p1 * (1 - fst p2), fst p2, 0, snd p1 * (snd p2 * (1 - fst p2)))) ps) ps
  | Hex => flat_map (fun p1 => flat_map (fun p2 => map (fun p3 => (fst p3, fst p2, fst p1, snd p1 * snd p2 * snd p3)) ps) ps) ps
  | Tet => flat_map (fun p1 => flat_map (fun p2 => map (fun p3 =>
      (fst p1 * (1 - fst p2) * (1 - fst p3), fst p2 * (1 - fst p3), fst p3, snd p1 * (snd p2 * (1 - fst p2)) * (snd p3 * (1 - fst p3) * (1 - fst p3)))) ps) ps) ps
  end.
Lemma refPts_len gl el n : length (refPts gl el n) = nQps el n.
Proof.
  assert (F : forall {A B} (h : A -> list B) l k, (forall a, length (h a) = k) -> length (flat_map h l) = (length l * k)%nat) by (intros A B h l k H; induction l as [|a l IH]; cbn; [reflexivity|]; rewrite app_length, IH, H; lia).
  destruct el; cbn [refPts nQps dim]; rewrite ?map_length, ?g1_len; [reflexivity| | | |].
  - rewrite (F _ _ _ _ n), g1_len; [lia|]. intros. now rewrite map_length, g1_len.
  - rewrite (F _ _ _ _ n), g1_len; [lia|]. intros. now rewrite map_length, g1_len.
  - rewrite (F _ _ _ _ (n * n)%nat), g1_len; [lia|]. intros. rewrite (F _ _ _ _ n), g1_len; [lia|]. intros. now rewrite map_length, g1_len.
  - rewrite (F _ _ _ _ (n * n)%nat), g1_len; [lia|]. intros. rewrite (F _ _ _ _ n), g1_len; [lia|]. intros. now rewrite map_length, g1_len.
Qed.
Lemma rule_lsum qs f : rule qs f = lsum qs (fun q => let '(x, y, z, w) := q in w * f x y z). Proof. reflexivity. Qed.
Lemma split2 {A B} (l : list A) (m : list B) (f : A -> R) (g : B -> R) : lsum l (fun a => lsum m (fun b => f a * g b)) = lsum l f * lsum m g.
Proof. rewrite <- lsum_mulr. apply lsum_ext. intros a _. apply lsum_mul. Qed.
Lemma ref_mon gl el n e : isGauss gl n -> okE el (exactDeg el n) e -> rule (refPts gl el n) (wmon el e) = imon el e.
Proof.
  intros G. destruct e as ((i & j) & k). rewrite rule_lsum. destruct el; cbn [okE exactDeg refPts imon]; intros H.
  - rewrite lsum_map. cbn [wmon]. apply g1_mon; [exact G|lia].
  - rewrite lsum_flat. rewrite <- (g1_mon gl n i), <- (g1_mon gl n j) by (assumption || lia). rewrite Rmult_comm, <- split2. apply lsum_ext. intros p1 _. rewrite lsum_map. apply lsum_ext. intros p2 _. cbn [wmon]. ring.
  - rewrite lsum_flat. replace (i + j + 2)%nat with (i + j + 1 + 1)%nat by lia. rewrite <- (g1_mon gl n i), <- (g1_mon gl n (i + j + 1)) by (assumption || lia). rewrite <- split2. apply lsum_ext. intros p1 _. rewrite lsum_map. apply lsum_ext. intros p2 _. cbn [wmon].
    replace (1 - fst p1 * (1 - fst p2) - fst p2) with ((1 - fst p1) * (1 - fst p2)) by ring. rewrite Rpow_mult_distr, !pow_add. ring.
  - rewrite lsum_flat. rewrite <- (g1_mon gl n i), <- (g1_mon gl n j), <- (g1_mon gl n k) by (assumption || lia).
    replace (lsum _ _ * lsum _ _ * lsum _ _) with (lsum (g1 gl n) (fun p => snd p * (1 - fst p) ^ k) * (lsum (g1 gl n) (fun p => snd p * (1 - fst p) ^ j) * lsum (g1 gl n) (fun p => snd p * (1 - fst p) ^ i))) by ring.
    rewrite <- (split2 _ _ (fun p => snd p * (1 - fst p) ^ j)), <- lsum_mulr. apply lsum_ext. intros p1 _. rewrite lsum_flat, <- lsum_mul. apply lsum_ext. intros p2 _. rewrite lsum_map, <- lsum_mul. apply lsum_ext. intros p3 _. cbn [wmon]. ring.
  - rewrite lsum_flat. replace (i + j + 2)%nat with (i + j + 1 + 1)%nat by lia. replace (i + j + k + 3)%nat with (i + j + k + 2 + 1)%nat by lia.
    rewrite <- (g1_mon gl n i), <- (g1_mon gl n (i + j + 1)), <- (g1_mon gl n (i + j + k + 2)) by (assumption || lia). rewrite Rmult_assoc.
    rewrite <- (split2 _ _ (fun p => snd p * (1 - fst p) ^ (i + j + 1))), <- lsum_mulr. apply lsum_ext. intros p1 _. rewrite lsum_flat, <- lsum_mul. apply lsum_ext. intros p2 _. rewrite lsum_map, <- lsum_mul. apply lsum_ext. intros p3 _. cbn [wmon].
    replace (1 - fst p1 * (1 - fst p2) * (1 - fst p3) - fst p2 * (1 - fst p3) - fst p3) with ((1 - fst p1) * (1 - fst p2) * (1 - fst p3)) by ring.
    replace (1 - fst p2 * (1 - fst p3) - fst p3) with ((1 - fst p2) * (1 - fst p3)) by ring. rewrite !Rpow_mult_distr, !pow_add. cbn [pow]. ring.
Qed.
Lemma rule_ext qs f g : (forall x y z, f x y z = g x y z) -> rule qs f = rule qs g.
Proof. intros H. rewrite !rule_lsum. apply lsum_ext. intros (((x & y) & z) & w) _. now rewrite H. Qed.
Lemma rule_add qs f g : rule qs (fun x y z => f x y z + g x y z) = rule qs f + rule qs g.
Proof. rewrite !rule_lsum, <- lsum_add. apply lsum_ext. intros (((x & y) & z) & w) _. ring. Qed.
Lemma rule_scal qs c f : rule qs (fun x y z => c * f x y z) = c * rule qs f.
Proof. rewrite !rule_lsum, <- lsum_mul. apply lsum_ext. intros (((x & y) & z) & w) _. ring. Qed.
Lemma ref_exact gl el n f : isGauss gl n -> wpoly el (okE el (exactDeg el n)) f -> intEl el f (rule (refPts gl el n) f).
Proof.
  intros G. induction 1 as [|e c He|f g Hf IHf Hg IHg|f g E Hf IHf].
  - replace (rule _ _) with 0; [apply intEl_zero|]. rewrite rule_lsum. symmetry. etransitivity; [|apply (lsum_0 (refPts gl el n))]. apply lsum_ext. intros (((x & y) & z) & w) _. cbv beta iota. ring.
  - rewrite rule_scal, ref_mon by assumption. apply intEl_scal, intEl_mon.
  - rewrite rule_add. now apply intEl_add.
  - rewrite <- (rule_ext _ _ _ E). now apply (intEl_ext _ f).
Qed.

(** *** The rules of the elements: images of the reference points *)
Definition phys (el : refEl) (v : list (list R)) (q : qpt) : qpt := let '(x, y, z, w) := q in (affMap el v x y z 0, affMap el v x y z 1, affMap el v x y z 2, w * volJ el v).
Lemma mapM_Ok {A B} (f : A -> res B) (g : A -> B) l : (forall a, In a l -> f a = Ok (g a)) -> mapM f l = Ok (map g l).
Proof. induction l as [|a l IH]; intros H; cbn [Comm.mapM map]; [reflexivity|]. rewrite (H a) by now left. cbn [bind]. rewrite IH; [reflexivity|]. intros; apply H; now right. Qed.
Lemma rlt_true a b : a < b -> rlt a b = true. Proof. intros. unfold rlt. now destruct (Rlt_dec a b). Qed.
Lemma rlt_false a b : b <= a -> rlt a b = false. Proof. intros. unfold rlt. destruct (Rlt_dec a b); [lra|reflexivity]. Qed.
Lemma map_flat {A B C} (h : B -> C) (g : A -> list B) l : map h (flat_map g l) = flat_map (fun a => map h (g a)) l.
Proof. induction l as [|a l IH]; cbn; [reflexivity|]. now rewrite map_app, IH. Qed.
Lemma flat_ext {A B} (f g : A -> list B) l : (forall a, In a l -> f a = g a) -> flat_map f l = flat_map g l.
Proof. induction l as [|a l IH]; intros H; cbn; [reflexivity|]. rewrite (H a) by now left. rewrite IH; [reflexivity|]. intros; apply H; now right. Qed.
Lemma flat_map_map {A B C} (h : A -> B) (f : B -> list C) l : flat_map f (map h l) = flat_map (fun a => f (h a)) l.
Proof. induction l as [|a l IH]; cbn; [reflexivity|]. now rewrite IH. Qed.
Ltac unj := unfold toPhy, jac, Mapping.refToPhy, Mapping.evalJac, Mapping.evalMap, Mapping.fsum, Mapping.at1, Mapping.at2, Mapping.tria3, Mapping.tet4, Mapping.hex8Lin, Mapping.derTria3, Mapping.derTet4, Mapping.derHex8Lin, det2, det3, crd; cbn -[Rplus Rmult Rminus Ropp nth Rinv].
Lemma qeq (a b c d a' b' c' d' : R) : a = a' -> b = b' -> c = c' -> d = d' -> (a, b, c, d) = (a', b', c', d'). Proof. now intros -> -> -> ->. Qed.
Lemma line_ok gl n v : (0 < n)%nat -> isGauss gl n -> qptsLine gl n v = Ok (map (phys Line v) (refPts gl Line n)).
Proof.
  intros Hn G. unfold qptsLine. rewrite gauss_ok by exact Hn. cbn [bind refPts]. f_equal. rewrite map_map. apply map_ext_in. intros p Hp. pose proof (g1_in _ _ _ G Hp) as B.
  unfold map2dLine, phys, affMap, edg, volJ, dist, sq, crd, vx. cbn [nth dim Nat.ltb Nat.leb ax].
  replace ((fst p - 0) * (fst p - 0) + (0 - 0) * (0 - 0) + (0 - 0) * (0 - 0)) with (fst p * fst p) by ring. rewrite sqrt_square by lra.
  replace ((1 - 0) * (1 - 0) + (0 - 0) * (0 - 0) + (0 - 0) * (0 - 0)) with 1 by ring. rewrite sqrt_1.
  unfold edg, vx. apply qeq; field.
Qed.

Lemma tria_pt v x y : exists pt, toPhy Tria v [x; y] = Ok pt /\ nth 0 pt 0 = affMap Tria v x y 0 0 /\ nth 1 pt 0 = affMap Tria v x y 0 1.
Proof. eexists. split; [reflexivity|]. unj. unfold affMap, edg, vx. cbn [dim Nat.ltb Nat.leb ax]. cbn [nth]. split; ring. Qed.
Lemma tria_jac v : exists j, jac Tria v = Ok j /\ det2 j = volJ Tria v.
Proof. eexists. split; [reflexivity|]. unj. unfold volJ, cross2, edg, vx. cbn [ax nth]. ring. Qed.
Lemma tet_pt v x y z : exists pt, toPhy Tet v [x; y; z] = Ok pt /\ nth 0 pt 0 = affMap Tet v x y z 0 /\ nth 1 pt 0 = affMap Tet v x y z 1 /\ nth 2 pt 0 = affMap Tet v x y z 2.
Proof. eexists. split; [reflexivity|]. unj. unfold affMap, edg, vx. cbn [dim Nat.ltb Nat.leb ax]. cbn [nth]. repeat split; ring. Qed.
Lemma tet_jac v : exists j, jac Tet v = Ok j /\ det3 j = volJ Tet v.
Proof. eexists. split; [reflexivity|]. unj. unfold volJ, triple, edg, vx. cbn [ax nth]. ring. Qed.
Definition parallel (v : list (list R)) : Prop := forall d, edg v 2 d = edg v 1 d + edg v 3 d /\ edg v 5 d = edg v 1 d + edg v 4 d /\ edg v 6 d = edg v 1 d + edg v 3 d + edg v 4 d /\ edg v 7 d = edg v 3 d + edg v 4 d.
Lemma par_vx v d : parallel v -> vx v d 2 = vx v d 1 + vx v d 3 - vx v d 0 /\ vx v d 5 = vx v d 1 + vx v d 4 - vx v d 0 /\ vx v d 6 = vx v d 1 + vx v d 3 + vx v d 4 - 2 * vx v d 0 /\ vx v d 7 = vx v d 3 + vx v d 4 - vx v d 0.
Proof. intros P. specialize (P d). unfold edg in P. lra. Qed.
Lemma hex_pt v x y z : parallel v -> exists pt, toPhy Hex v [x; y; z] = Ok pt /\ nth 0 pt 0 = affMap Hex v x y z 0 /\ nth 1 pt 0 = affMap Hex v x y z 1 /\ nth 2 pt 0 = affMap Hex v x y z 2.
Proof.
  intros P. eexists. split; [reflexivity|]. unj. unfold affMap, edg. cbn [dim Nat.ltb Nat.leb ax]. 
  repeat split; cbn [nth]; match goal with |- context [vx v ?d 0] => destruct (par_vx v d P) as (E2 & E5 & E6 & E7) end; unfold vx in *; rewrite E2, E5, E6, E7; ring.
Qed.
Lemma hex_jac v : exists j, jac Hex v = Ok j /\ det3 j = volJ Hex v.
Proof. eexists. split; [reflexivity|]. unj. unfold volJ, triple, edg, vx. cbn [ax nth]. ring. Qed.
Lemma tria_ok gl tol n v : (0 < n)%nat -> wellShaped tol Tria v -> qptsTria gl tol n v = Ok (map (phys Tria v) (refPts gl Tria n)).
Proof.
  intros Hn (Z0 & T). unfold qptsTria. rewrite gauss_ok by exact Hn. cbn [bind refPts].
  rewrite (mapM_Ok _ (fun q => let '(xi, eta, w) := q in phys Tria v (xi, eta, 0, w))).
  - f_equal. unfold scaled. rewrite map_flat, flat_map_map, map_flat. apply flat_ext. intros p1 _. rewrite !map_map. apply map_ext. intros p2. cbn [fst snd]. f_equal. apply qeq; field.
  - intros ((xi & eta) & w) _. destruct (tria_pt v xi eta) as (pt & E & E0 & E1), (tria_jac v) as (j & J & D). rewrite E, J. cbn [bind]. rewrite D, rlt_true by exact T. cbn [check bind]. rewrite E0, E1. unfold phys. f_equal. apply qeq; try reflexivity.
    unfold affMap, edg. cbn [dim Nat.ltb Nat.leb ax]. rewrite !Z0. ring.
Qed.
Lemma tet_ok gl tol n v : (0 < n)%nat -> wellShaped tol Tet v -> qptsTet gl tol n v = Ok (map (phys Tet v) (refPts gl Tet n)).
Proof.
  intros Hn T. unfold qptsTet. rewrite gauss_ok by exact Hn. cbn [bind refPts].
  rewrite (mapM_Ok _ (fun q => phys Tet v q)).
  - f_equal. unfold scaled. rewrite map_flat, flat_map_map, map_flat. apply flat_ext. intros p1 _. rewrite !map_flat, flat_map_map. apply flat_ext. intros p2 _. rewrite !map_map. apply map_ext. intros p3. cbn [fst snd]. f_equal. apply qeq; field.
  - intros (((xi & eta) & zeta) & w) _. destruct (tet_pt v xi eta zeta) as (pt & E & E0 & E1 & E2), (tet_jac v) as (j & J & D). rewrite E, J. cbn [bind]. rewrite D, rlt_true by exact T. cbn [check bind]. now rewrite E0, E1, E2.
Qed.
Lemma hex_ok gl tol n v : (0 < n)%nat -> wellShaped tol Hex v -> qptsHex gl tol n v = Ok (map (phys Hex v) (refPts gl Hex n)).
Proof.
  intros Hn (P & T). unfold qptsHex. rewrite gauss_ok by exact Hn. cbn [bind refPts].
  rewrite (mapM_Ok _ (fun q => let '(p1, p2, p3) := q in phys Hex v (fst p3, fst p2, fst p1, snd p1 * snd p2 * snd p3))).
  - f_equal. rewrite !map_flat. apply flat_ext. intros p1 _. rewrite !map_flat. apply flat_ext. intros p2 _. rewrite !map_map. reflexivity.
  - intros ((p1 & p2) & p3) _. destruct (hex_pt v (fst p3) (fst p2) (fst p1) P) as (pt & E & E0 & E1 & E2), (hex_jac v) as (j & J & D). rewrite E, J. cbn [bind]. rewrite D, rlt_true by exact T. cbn [check bind]. now rewrite E0, E1, E2.
Qed.
Lemma quad_ok gl tol n v : (0 < n)%nat -> 0 < tol -> wellShaped tol Quad v -> qptsQuad gl tol n v = Ok (map (phys Quad v) (refPts gl Quad n)).
Proof.
  intros Hn Ht (Z0 & E11 & E30 & E2 & T1 & T3 & T). unfold qptsQuad. rewrite gauss_ok by exact Hn. cbn [bind refPts].
  pose proof (E2 0%nat) as E20. pose proof (E2 1%nat) as E21. pose proof (fun i => Z0 i) as Z1. unfold volJ, cross2 in T. cbn [ax] in T. rewrite E11, E30 in T. unfold edg in *.
  assert (L0 : lo (nth 0 v []) = vx v 0 0) by (unfold lo, vx in *; cbn [fold_left]; unfold Rmin; repeat destruct Rle_dec; lra).
  assert (L1 : lo (nth 1 v []) = vx v 1 0) by (unfold lo, vx in *; cbn [fold_left]; unfold Rmin; repeat destruct Rle_dec; lra).
  assert (L2 : lo (nth 2 v []) = 0) by (unfold lo, vx in *; cbn [fold_left]; rewrite !Z0; unfold Rmin; repeat destruct Rle_dec; lra).
  assert (H0 : hi (nth 0 v []) = vx v 0 1) by (unfold hi, vx in *; cbn [fold_left]; unfold Rmax; repeat destruct Rle_dec; lra).
  assert (H1 : hi (nth 1 v []) = vx v 1 3) by (unfold hi, vx in *; cbn [fold_left]; unfold Rmax; repeat destruct Rle_dec; lra).
  assert (H2 : hi (nth 2 v []) = 0) by (unfold hi, vx in *; cbn [fold_left]; rewrite !Z0; unfold Rmax; repeat destruct Rle_dec; lra).
  cbn [filter]. rewrite L0, L1, L2, H0, H1, H2. rewrite (rlt_true tol (vx v 0 1 - _)), (rlt_true tol (vx v 1 3 - _)), (rlt_false tol (0 - 0)) by lra.
  rewrite rlt_true by lra. cbn [check bind]. f_equal. rewrite map_flat. apply flat_ext. intros p1 _. rewrite map_map. apply map_ext. intros p2.
  unfold phys, affMap, volJ, cross2, edg. cbn [dim Nat.ltb Nat.leb ax]. rewrite !Z0, E11, E30. assert (X : vx v 0 3 = vx v 0 0) by lra. assert (Y : vx v 1 1 = vx v 1 0) by lra. apply qeq; rewrite ?X, ?Y; ring.
Qed.
Lemma qpts_ok gl tol el n v : (0 < n)%nat -> isGauss gl n -> 0 < tol -> wellShaped tol el v -> getQpts gl tol el n v = Ok (map (phys el v) (refPts gl el n)).
Proof. intros Hn G Ht W. destruct el; cbn [getQpts]; [now apply line_ok|now apply quad_ok|now apply tria_ok|now apply hex_ok|now apply tet_ok]. Qed.

(** *** Polynomials of the physical coordinates on the reference elements *)
Lemma wd_ext el d f g : (forall x y z, f x y z = g x y z) -> wpoly el (degE el d) f -> wpoly el (degE el d) g. Proof. apply wp_ext. Qed.
Lemma wd_w el e c : degE el 1 e -> wpoly el (degE el 1) (fun x y z => c * wmon el e x y z). Proof. intros. now apply wp_mon. Qed.
Lemma wd_c el c : wpoly el (degE el 1) (fun _ _ _ => c).
Proof. apply (wd_le el 0 1); [lia|]. apply (wp_ext el _ (fun x y z => c * 1)); [intros; ring|]. apply wp_scal, wd_1. Qed.
Lemma wd_affMap el v d : wpoly el (degE el 1) (fun x y z => affMap el v x y z d).
Proof.
  unfold affMap. set (a := vx v d 0). set (b := edg v (ax el 0) d). set (c := edg v (ax el 1) d). set (k := edg v (ax el 2) d). clearbody a b c k.
  destruct el; cbn [dim Nat.ltb Nat.leb].
  - refine (wp_ext _ _ _ _ _ (wp_add _ _ _ _ (wd_c Line (a + b)) (wd_w Line (1, 0, 0)%nat (- b) ltac:(split; [reflexivity|cbn; lia])))). intros. cbn. ring.
  - refine (wp_ext _ _ _ _ _ (wp_add _ _ _ _ (wp_add _ _ _ _ (wd_c Quad (a + b + c)) (wd_w Quad (1, 0, 0)%nat (- b) ltac:(split; [reflexivity|cbn; lia]))) (wd_w Quad (0, 1, 0)%nat (- c) ltac:(split; [reflexivity|cbn; lia])))). intros. cbn. ring.
  - refine (wp_ext _ _ _ _ _ (wp_add _ _ _ _ (wp_add _ _ _ _ (wd_c Tria (a + c)) (wd_w Tria (1, 0, 0)%nat (- b) ltac:(split; [reflexivity|cbn; lia]))) (wd_w Tria (0, 1, 0)%nat (b - c) ltac:(split; [reflexivity|cbn; lia])))). intros. cbn. ring.
  - refine (wp_ext _ _ _ _ _ (wp_add _ _ _ _ (wp_add _ _ _ _ (wp_add _ _ _ _ (wd_c Hex (a + b + c + k)) (wd_w Hex (1, 0, 0)%nat (- b) ltac:(split; [reflexivity|cbn; lia]))) (wd_w Hex (0, 1, 0)%nat (- c) ltac:(split; [reflexivity|cbn; lia]))) (wd_w Hex (0, 0, 1)%nat (- k) ltac:(split; [reflexivity|cbn; lia])))). intros. cbn. ring.
  - refine (wp_ext _ _ _ _ _ (wp_add _ _ _ _ (wp_add _ _ _ _ (wp_add _ _ _ _ (wd_c Tet (a + k)) (wd_w Tet (1, 0, 0)%nat (- b) ltac:(split; [reflexivity|cbn; lia]))) (wd_w Tet (0, 1, 0)%nat (b - c) ltac:(split; [reflexivity|cbn; lia]))) (wd_w Tet (0, 0, 1)%nat (c - k) ltac:(split; [reflexivity|cbn; lia])))). intros. cbn. ring.
Qed.
Lemma degE_ok el d n e : (d < n)%nat -> degE el d e -> okE el n e.
Proof. intros H (E & D). destruct e as ((i & j) & k). destruct el; cbn in *; inversion E; subst; lia. Qed.
Definition onRef (el : refEl) (v : list (list R)) (f : R -> R -> R -> R) (x y z : R) : R := f (affMap el v x y z 0) (affMap el v x y z 1) (affMap el v x y z 2).
Lemma total_wp el v N f : polyOf (totalDeg N) f -> wpoly el (okE el N) (onRef el v f).
Proof.
  intros (l & H & E). apply (wp_ext el _ (fun x y z => onRef el v (fun x y z => fold_right Rplus 0 (map (fun t => let '(c, (i, j, k)) := t in c * (x ^ i * y ^ j * z ^ k)) l)) x y z)); [intros; unfold onRef; now rewrite E|]. clear f E.
  induction l as [|(c & ((i & j) & k)) l IH]; [apply wp_zero|]. unfold onRef. cbn [map fold_right].
  apply (wp_add el _ (fun x y z => c * (affMap el v x y z 0 ^ i * affMap el v x y z 1 ^ j * affMap el v x y z 2 ^ k))).
  - apply wp_scal. pose proof (H c i j k (or_introl eq_refl)) as B. unfold totalDeg in B. apply (wp_weaken el (degE el (i * 1 + j * 1 + k * 1))); [intros e; apply degE_ok; lia|].
    apply (wd_mul el (i * 1 + j * 1) (k * 1) (fun x y z => affMap el v x y z 0 ^ i * affMap el v x y z 1 ^ j)); [apply (wd_mul el (i * 1) (j * 1) (fun x y z => affMap el v x y z 0 ^ i))|]; apply (wd_pow el 1 (fun x y z => affMap el v x y z _)), wd_affMap.
  - apply IH. intros c' i' j' k' I. apply (H c' i' j' k'). now right.
Qed.
(** products of powers of the single coordinates *)
Definition leE (a b c : nat) (e : mode) : Prop := let '(i, j, k) := e in (i <= a /\ j <= b /\ k <= c)%nat.
Lemma le_mul el a b c a' b' c' f g : wpoly el (leE a b c) f -> wpoly el (leE a' b' c') g -> wpoly el (leE (a + a') (b + b') (c + c')) (fun x y z => f x y z * g x y z).
Proof. apply wp_mul. intros ((i & j) & k) ((i' & j') & k'). cbn. lia. Qed.
Lemma le_1 el : wpoly el (leE 0 0 0) (fun _ _ _ => 1).
Proof. apply (wp_ext el _ (fun x y z => 1 * wmon el (0, 0, 0)%nat x y z)); [intros; destruct el; cbn; ring|]. apply wp_mon. cbn. lia. Qed.
Lemma le_pow el a b c f n : wpoly el (leE a b c) f -> wpoly el (leE (n * a) (n * b) (n * c)) (fun x y z => f x y z ^ n).
Proof. intros F. induction n as [|n IH]; cbn [pow Nat.mul]; [apply le_1|]. now apply le_mul. Qed.
Lemma le_c el a b c d : wpoly el (leE a b c) (fun _ _ _ => d).
Proof. apply (wp_weaken el (leE 0 0 0)); [intros ((i & j) & k); cbn; lia|]. apply (wp_ext el _ (fun x y z => d * 1)); [intros; ring|]. apply wp_scal, le_1. Qed.
Definition tensor (el : refEl) : Prop := el = Quad \/ el = Hex.
Lemma le_x el a b : tensor el -> wpoly el (leE 1 0 0) (fun x y z => a + x * b).
Proof. intros T. refine (wp_ext _ _ _ _ _ (wp_add _ _ _ _ (le_c el 1 0 0 (a + b)) (wp_mon el (leE 1 0 0) (1, 0, 0)%nat (- b) _))); [|cbn; lia]. intros. destruct T as [->| ->]; cbn; ring. Qed.
Lemma le_y el a b : tensor el -> wpoly el (leE 0 1 0) (fun x y z => a + y * b).
Proof. intros T. refine (wp_ext _ _ _ _ _ (wp_add _ _ _ _ (le_c el 0 1 0 (a + b)) (wp_mon el (leE 0 1 0) (0, 1, 0)%nat (- b) _))); [|cbn; lia]. intros. destruct T as [->| ->]; cbn; ring. Qed.
Lemma le_z a b : wpoly Hex (leE 0 0 1) (fun x y z => a + z * b).
Proof. refine (wp_ext _ _ _ _ _ (wp_add _ _ _ _ (le_c Hex 0 0 1 (a + b)) (wp_mon Hex (leE 0 0 1) (0, 0, 1)%nat (- b) _))); [|cbn; lia]. intros. cbn; ring. Qed.
(** sums of products of polynomials in the coordinates *)
Lemma each_wp el N (a b c : R -> R -> R -> R) f : (forall i j k, (i < N)%nat -> (j < N)%nat -> (k < N)%nat -> wpoly el (okE el N) (fun x y z => a x y z ^ i * b x y z ^ j * c x y z ^ k)) ->
  polyOf (eachDeg N) f -> wpoly el (okE el N) (fun x y z => f (a x y z) (b x y z) (c x y z)).
Proof.
  intros M (l & H & E). apply (wp_ext el _ (fun x y z => fold_right Rplus 0 (map (fun t => let '(d, (i, j, k)) := t in d * (a x y z ^ i * b x y z ^ j * c x y z ^ k)) l))); [intros; now rewrite E|]. clear f E.
  induction l as [|(d & ((i & j) & k)) l IH]; [apply wp_zero|]. cbn [map fold_right].
  apply (wp_add el _ (fun x y z => d * (a x y z ^ i * b x y z ^ j * c x y z ^ k))).
  - apply wp_scal. destruct (H d i j k (or_introl eq_refl)) as (B1 & B2 & B3). now apply M.
  - apply IH. intros c' i' j' k' I. apply (H c' i' j' k'). now right.
Qed.
Lemma box_wp v N f : isBox v -> polyOf (eachDeg N) f -> wpoly Hex (okE Hex N) (onRef Hex v f).
Proof.
  intros (A & B & C & D & F & G). apply (each_wp Hex N (fun x y z => affMap Hex v x y z 0) (fun x y z => affMap Hex v x y z 1) (fun x y z => affMap Hex v x y z 2) f). intros i j k Hi Hj Hk. unfold affMap. cbn [dim Nat.ltb Nat.leb ax]. rewrite A, B, C, D, F, G.
  apply (wp_weaken Hex (leE (i * 1 + j * 0 + k * 0) (i * 0 + j * 1 + k * 0) (i * 0 + j * 0 + k * 1))); [intros ((p & q) & r); cbn; lia|].
  apply (le_mul Hex _ _ _ _ _ _ (fun x y z => (vx v 0 0 + x * edg v 1 0 + y * 0 + z * 0) ^ i * (vx v 1 0 + x * 0 + y * edg v 3 1 + z * 0) ^ j)); [apply (le_mul Hex _ _ _ _ _ _ (fun x y z => (vx v 0 0 + x * edg v 1 0 + y * 0 + z * 0) ^ i))|].
  - apply (le_pow Hex 1 0 0 (fun x y z => vx v 0 0 + x * edg v 1 0 + y * 0 + z * 0)). eapply wp_ext; [|apply (le_x Hex (vx v 0 0) (edg v 1 0)); now right]. intros; cbn; ring.
  - apply (le_pow Hex 0 1 0 (fun x y z => vx v 1 0 + x * 0 + y * edg v 3 1 + z * 0)). eapply wp_ext; [|apply (le_y Hex (vx v 1 0) (edg v 3 1)); now right]. intros; cbn; ring.
  - apply (le_pow Hex 0 0 1 (fun x y z => vx v 2 0 + x * 0 + y * 0 + z * edg v 4 2)). eapply wp_ext; [|apply (le_z (vx v 2 0) (edg v 4 2))]. intros; cbn; ring.
Qed.
Lemma quad_wp tol v N f : wellShaped tol Quad v -> polyOf (eachDeg N) f -> wpoly Quad (okE Quad N) (onRef Quad v f).
Proof.
  intros (Z0 & A & B & _). apply (each_wp Quad N (fun x y z => affMap Quad v x y z 0) (fun x y z => affMap Quad v x y z 1) (fun x y z => affMap Quad v x y z 2) f). intros i j k Hi Hj Hk. unfold affMap. cbn [dim Nat.ltb Nat.leb ax]. rewrite A, B. assert (E : edg v 1 2 = 0 /\ edg v 3 2 = 0 /\ vx v 2 0 = 0) by (unfold edg; rewrite !Z0; lra). destruct E as (E1 & E3 & E0). rewrite E1, E3, E0.
  apply (wp_ext Quad _ (fun x y z => 0 ^ k * ((vx v 0 0 + x * edg v 1 0) ^ i * (vx v 1 0 + y * edg v 3 1) ^ j))); [intros; replace (0 + x * 0 + y * 0 + 0) with 0 by ring; replace (vx v 0 0 + x * edg v 1 0 + y * 0 + 0) with (vx v 0 0 + x * edg v 1 0) by ring; replace (vx v 1 0 + x * 0 + y * edg v 3 1 + 0) with (vx v 1 0 + y * edg v 3 1) by ring; ring|].
  apply wp_scal.
  apply (wp_weaken Quad (fun e => leE i j 0 e)); [intros ((p & q) & r); cbn; lia|].
  replace (leE i j 0) with (leE (i * 1 + j * 0) (i * 0 + j * 1) (i * 0 + j * 0)) by (f_equal; lia).
  apply (le_mul Quad _ _ _ _ _ _ (fun x y z => (vx v 0 0 + x * edg v 1 0) ^ i)).
  - apply (le_pow Quad 1 0 0 (fun x y z => vx v 0 0 + x * edg v 1 0)). apply le_x. now left.
  - apply (le_pow Quad 0 1 0 (fun x y z => vx v 1 0 + y * edg v 3 1)). apply le_y. now left.
Qed.
Lemma rule_phys el v qs f : rule (map (phys el v) qs) f = volJ el v * rule qs (onRef el v f).
Proof. rewrite !rule_lsum, lsum_map, <- lsum_mul. apply lsum_ext. intros (((x & y) & z) & w) _. unfold phys, onRef. ring. Qed.
