(** C89: the quadrature rules integrate polynomials exactly over the elements. *)
From Coq Require Import List ZArith Reals Lra Lia Bool.
From Verif Require Import Util BasisSpec BasisInt BasisSpan Basis EdgePreP Qpts QptsSpec QptsP.
Import ListNotations.
Local Open Scope R_scope.

(** the polynomials a rule of exactness N has to integrate: total degree below N; for elements along the axes also each exponent below N *)
Definition admits (el : refEl) (v : list (list R)) (N : nat) (f : R -> R -> R -> R) : Prop :=
  match el with Quad => polyOf (eachDeg N) f | Hex => polyOf (totalDeg N) f \/ (isBox v /\ polyOf (eachDeg N) f) | _ => polyOf (totalDeg N) f end.
Lemma admits_wp tol el v N f : wellShaped tol el v -> admits el v N f -> wpoly el (okE el N) (onRef el v f).
Proof. intros W. destruct el; cbn [admits]; try apply total_wp; [now apply (quad_wp tol)|]. intros [P|(B & P)]; [now apply total_wp|now apply box_wp]. Qed.

(** With a Gauss-Legendre rule of the external library, the points and weights exist, there are n per dimension, and the weighted sum of the values is the integral over the element
    (the integral over the reference element, times the change of volume). *)
Theorem C89_exact gl tol el n v f : (0 < n)%nat -> isGauss gl n -> 0 < tol -> wellShaped tol el v -> admits el v (exactDeg el n) f ->
  exists qs I, getQpts gl tol el n v = Ok qs /\ length qs = (n ^ dim el)%nat
    /\ intEl el (fun x y z => f (affMap el v x y z 0) (affMap el v x y z 1) (affMap el v x y z 2)) I /\ rule qs f = volJ el v * I.
Proof.
  intros Hn G Ht W A. exists (map (phys el v) (refPts gl el n)), (rule (refPts gl el n) (onRef el v f)). split; [now apply qpts_ok|]. split.
  - rewrite map_length, refPts_len. destruct el; cbn; lia.
  - split; [|apply rule_phys]. apply (ref_exact gl el n (onRef el v f) G). now apply (admits_wp tol).
Qed.

(** The weights sum up to the volume of the element. *)
Theorem C89_volume gl tol el n v : (0 < n)%nat -> (el = Tet -> 2 <= n)%nat -> isGauss gl n -> 0 < tol -> wellShaped tol el v ->
  exists qs, getQpts gl tol el n v = Ok qs /\ fold_right Rplus 0 (map snd qs) = volJ el v * refVol el.
Proof.
  intros Hn H2 G Ht W. exists (map (phys el v) (refPts gl el n)). split; [now apply qpts_ok|].
  assert (E : okE el (exactDeg el n) (0, 0, 0)%nat) by (destruct el; cbn in *; try specialize (H2 eq_refl); lia).
  pose proof (ref_mon gl el n _ G E) as M. transitivity (rule (map (phys el v) (refPts gl el n)) (fun _ _ _ => 1)).
  - unfold rule. f_equal. apply map_ext. intros (((x & y) & z) & w). cbn. ring.
  - rewrite rule_phys. f_equal. rewrite <- (rule_ext _ (wmon el (0, 0, 0)%nat)); [|intros; unfold onRef; destruct el; cbn; ring]. rewrite M. destruct el; cbn; field.
Qed.

(** The points lie strictly inside the element; the weights are positive if those of the library are. *)
Definition inside (el : refEl) (x y z : R) : Prop :=
  match el with
  | Line => 0 < x < 1 | Quad => 0 < x < 1 /\ 0 < y < 1 | Hex => 0 < x < 1 /\ 0 < y < 1 /\ 0 < z < 1
  | Tria => 0 < x /\ 0 < y /\ x + y < 1 | Tet => 0 < x /\ 0 < y /\ 0 < z /\ x + y + z < 1
  end.
Lemma refPts_in gl el n x y z w : isGauss gl n -> In (x, y, z, w) (refPts gl el n) -> inside el x y z /\ ((forall k, (1 <= k <= n)%nat -> 0 < snd (gl n k)) -> 0 < w).
Proof.
  intros G. assert (B : forall p, In p (g1 gl n) -> 0 < fst p < 1 /\ ((forall k, (1 <= k <= n)%nat -> 0 < snd (gl n k)) -> 0 < snd p)).
  { intros p Hp. split; [now apply (g1_in gl n)|]. intros P. apply in_map_iff in Hp. destruct Hp as (k & <- & I). apply in_seq in I. specialize (P (n - k)%nat ltac:(lia)). destruct (gl n (n - k)%nat). cbn in *. lra. }
  assert (M : forall a b, 0 < a < 1 -> 0 < b < 1 -> 0 < a * (1 - b) < 1 - b) by (intros a b Ha Hb; split; [apply Rmult_lt_0_compat; lra|]; rewrite <- (Rmult_1_l (1 - b)) at 2; apply Rmult_lt_compat_r; lra).
  destruct el; cbn [refPts inside]; intros H.
  - apply in_map_iff in H. destruct H as (p & [= <- <- <- <-] & Hp). apply B, Hp.
  - apply in_flat_map in H. destruct H as (p1 & H1 & H). apply in_map_iff in H. destruct H as (p2 & [= <- <- <- <-] & H2). destruct (B _ H1) as (B1 & W1), (B _ H2) as (B2 & W2). split; [lra|]. intros P. apply Rmult_lt_0_compat; auto.
  - apply in_flat_map in H. destruct H as (p1 & H1 & H). apply in_map_iff in H. destruct H as (p2 & [= <- <- <- <-] & H2). destruct (B _ H1) as (B1 & W1), (B _ H2) as (B2 & W2). pose proof (M _ _ B1 B2). split; [lra|].
    intros P. repeat apply Rmult_lt_0_compat; auto; lra.
  - apply in_flat_map in H. destruct H as (p1 & H1 & H). apply in_flat_map in H. destruct H as (p2 & H2 & H). apply in_map_iff in H. destruct H as (p3 & [= <- <- <- <-] & H3). destruct (B _ H1) as (B1 & W1), (B _ H2) as (B2 & W2), (B _ H3) as (B3 & W3). split; [lra|].
    intros P. repeat apply Rmult_lt_0_compat; auto.
  - apply in_flat_map in H. destruct H as (p1 & H1 & H). apply in_flat_map in H. destruct H as (p2 & H2 & H). apply in_map_iff in H. destruct H as (p3 & [= <- <- <- <-] & H3). destruct (B _ H1) as (B1 & W1), (B _ H2) as (B2 & W2), (B _ H3) as (B3 & W3).
    pose proof (M _ _ B1 B2) as M1. pose proof (M _ _ B2 B3) as M2. split.
    + assert (X : 0 < fst p1 * (1 - fst p2) * (1 - fst p3) < (1 - fst p2) * (1 - fst p3)) by (split; [apply Rmult_lt_0_compat; lra|apply Rmult_lt_compat_r; lra]). lra.
    + intros P. repeat apply Rmult_lt_0_compat; auto; lra.
Qed.
Theorem C89_inside gl tol el n v : (0 < n)%nat -> isGauss gl n -> 0 < tol -> wellShaped tol el v ->
  exists qs, getQpts gl tol el n v = Ok qs /\ forall q, In q qs -> exists x y z, inside el x y z
    /\ fst q = (affMap el v x y z 0, affMap el v x y z 1, affMap el v x y z 2) /\ ((forall k, (1 <= k <= n)%nat -> 0 < snd (gl n k)) -> el <> Line -> 0 < snd q).
Proof.
  intros Hn G Ht W. exists (map (phys el v) (refPts gl el n)). split; [now apply qpts_ok|]. intros q H. apply in_map_iff in H. destruct H as ((((x & y) & z) & w) & <- & H). destruct (refPts_in _ _ _ _ _ _ _ G H) as (I & P).
  exists x, y, z. split; [exact I|]. split; [reflexivity|]. intros Q L. cbn [phys snd]. apply Rmult_lt_0_compat; [now apply P|]. destruct el; cbn [wellShaped] in W; [contradiction|..]; lra.
Qed.

(** Elements with inverted or vanishing Jacobians are rejected, so are rules without points. *)
Theorem C89_reject gl tol el n v : ((0 < n)%nat -> match el with Tria | Tet => volJ el v <= tol | Hex => volJ Hex v <= tol | _ => False end) -> getQpts gl tol el n v = Er Echeck.
Proof.
  destruct (Nat.eq_dec n 0) as [->|N]; [intros _; destruct el; reflexivity|]. intros H. specialize (H ltac:(lia)). assert (L : exists p l, g1 gl n = p :: l) by (destruct (g1 gl n) eqn:E; [apply (f_equal (@length _)) in E; rewrite g1_len in E; cbn in E; lia|eauto]). destruct L as (p & l & L).
  destruct el; try contradiction; cbn [getQpts]; unfold qptsTria, qptsHex, qptsTet; rewrite gauss_ok by lia; rewrite L; cbn [bind scaled map flat_map app Comm.mapM].
  - destruct (tria_jac v) as (j & J & D). rewrite J. cbn [bind toPhy Mapping.refToPhy ent]. rewrite D, rlt_false by exact H. reflexivity.
  - destruct (hex_jac v) as (j & J & D). rewrite J. cbn [bind toPhy Mapping.refToPhy ent]. rewrite D, rlt_false by exact H. reflexivity.
  - destruct (tet_jac v) as (j & J & D). rewrite J. cbn [bind toPhy Mapping.refToPhy ent]. rewrite D, rlt_false by exact H. reflexivity.
Qed.

(** Rectangles in any plane along the axes, with any numbering of the vertices (faces of hexahedra): [a], [b] are the extents. *)
Definition isRect (v : list (list R)) (a b : nat -> R) : Prop := forall d, (d < 3)%nat ->
  a d <= b d /\ (forall i, (i < 4)%nat -> vx v d i = a d \/ vx v d i = b d) /\ (exists i, (i < 4)%nat /\ vx v d i = a d) /\ (exists i, (i < 4)%nat /\ vx v d i = b d).
Definition plane (d0 d1 fx : nat) : Prop := (d0, d1, fx) = (0, 1, 2)%nat \/ (d0, d1, fx) = (0, 2, 1)%nat \/ (d0, d1, fx) = (1, 2, 0)%nat.
(** coordinates of a point of the rectangle *)
Definition rectPt (a b : nat -> R) (d0 d1 : nat) (x y : R) (d : nat) : R := if (d =? d0)%nat then a d + x * (b d - a d) else if (d =? d1)%nat then a d + y * (b d - a d) else a d.
Lemma extents v a b d : isRect v a b -> (d < 3)%nat -> lo (nth d v []) = a d /\ hi (nth d v []) = b d.
Proof.
  intros H Hd. destruct (H d Hd) as (L & V & (i & Hi & Ei) & (j & Hj & Ej)). pose proof (V 0%nat ltac:(lia)) as V0. pose proof (V 1%nat ltac:(lia)) as V1. pose proof (V 2%nat ltac:(lia)) as V2. pose proof (V 3%nat ltac:(lia)) as V3. clear V H. unfold lo, hi, vx in *. cbn [fold_left].
  assert (A : nth 0 (nth d v []) 0 = a d \/ nth 1 (nth d v []) 0 = a d \/ nth 2 (nth d v []) 0 = a d \/ nth 3 (nth d v []) 0 = a d) by (destruct i as [|[|[|[|]]]]; auto; lia).
  assert (B : nth 0 (nth d v []) 0 = b d \/ nth 1 (nth d v []) 0 = b d \/ nth 2 (nth d v []) 0 = b d \/ nth 3 (nth d v []) 0 = b d) by (destruct j as [|[|[|[|]]]]; auto; lia).
  clear - L V0 V1 V2 V3 A B. unfold Rmin, Rmax. split; repeat destruct Rle_dec; lra.
Qed.
Theorem C89_face gl tol n v a b d0 d1 fx f : (0 < n)%nat -> isGauss gl n -> 0 < tol -> isRect v a b -> plane d0 d1 fx -> a fx = b fx -> tol < b d0 - a d0 -> tol < b d1 - a d1 -> tol < (b d0 - a d0) * (b d1 - a d1) ->
  polyOf (eachDeg (2 * n)) f ->
  exists qs I, getQpts gl tol Quad n v = Ok qs /\ length qs = (n * n)%nat
    /\ intEl Quad (fun x y _ => f (rectPt a b d0 d1 x y 0) (rectPt a b d0 d1 x y 1) (rectPt a b d0 d1 x y 2)) I /\ rule qs f = (b d0 - a d0) * (b d1 - a d1) * I.
Proof.
  intros Hn G Ht Rc P Ef T0 T1 T F. set (g := fun x y (_ : R) => f (rectPt a b d0 d1 x y 0) (rectPt a b d0 d1 x y 1) (rectPt a b d0 d1 x y 2)).
  exists (map (fun q => let '(x, y, z, w) := q in (rectPt a b d0 d1 x y 0, rectPt a b d0 d1 x y 1, rectPt a b d0 d1 x y 2, w * ((b d0 - a d0) * (b d1 - a d1)))) (refPts gl Quad n)), (rule (refPts gl Quad n) g).
  destruct (extents v a b 0 Rc ltac:(lia)) as (L0 & H0), (extents v a b 1 Rc ltac:(lia)) as (L1 & H1), (extents v a b 2 Rc ltac:(lia)) as (L2 & H2). split; [|split; [rewrite map_length, refPts_len; reflexivity|split]].
  - cbn [getQpts]. unfold qptsQuad. rewrite gauss_ok by exact Hn. cbn [bind refPts filter]. rewrite L0, L1, L2, H0, H1, H2.
    assert (F0 : rlt tol (b d0 - a d0) = true) by now apply rlt_true. assert (F1 : rlt tol (b d1 - a d1) = true) by now apply rlt_true. assert (Fx : rlt tol (b fx - a fx) = false) by (apply rlt_false; lra).
    destruct P as [[= -> -> ->]|[[= -> -> ->]|[= -> -> ->]]]; rewrite F0, F1, Fx; rewrite rlt_true by assumption; cbn [check bind];
      f_equal; rewrite map_flat; apply flat_ext; intros p1 _; rewrite map_map; apply map_ext; intros p2; unfold rectPt; cbn [Nat.eqb]; apply qeq; ring.
  - apply (ref_exact gl Quad n g G). cbn [exactDeg]. unfold g.
    apply (each_wp Quad (2 * n) (fun x y _ => rectPt a b d0 d1 x y 0) (fun x y _ => rectPt a b d0 d1 x y 1) (fun x y _ => rectPt a b d0 d1 x y 2) f); [|exact F]. intros i j k Hi Hj Hk.
    assert (X : forall c e m, wpoly Quad (leE m 0 0) (fun x y z => (c + x * e) ^ m)) by (intros c e m; pose proof (le_pow Quad 1 0 0 (fun x y z => c + x * e) m (le_x Quad c e (or_introl eq_refl))) as Y; rewrite Nat.mul_1_r, Nat.mul_0_r in Y; exact Y).
    assert (Y : forall c e m, wpoly Quad (leE 0 m 0) (fun x y z => (c + y * e) ^ m)) by (intros c e m; pose proof (le_pow Quad 0 1 0 (fun x y z => c + y * e) m (le_y Quad c e (or_introl eq_refl))) as Y; rewrite Nat.mul_1_r, Nat.mul_0_r in Y; exact Y).
    destruct P as [[= -> -> ->]|[[= -> -> ->]|[= -> -> ->]]]; unfold rectPt; cbn [Nat.eqb].
    + refine (wp_weaken Quad _ _ _ _ (le_mul Quad _ _ _ _ _ _ _ _ (le_mul Quad _ _ _ _ _ _ _ _ (X (a 0%nat) (b 0%nat - a 0%nat) i) (Y (a 1%nat) (b 1%nat - a 1%nat) j)) (le_c Quad 0 0 0 (a 2%nat ^ k)))). intros ((p & q) & r); cbn; lia.
    + refine (wp_weaken Quad _ _ _ _ (le_mul Quad _ _ _ _ _ _ _ _ (le_mul Quad _ _ _ _ _ _ _ _ (X (a 0%nat) (b 0%nat - a 0%nat) i) (le_c Quad 0 0 0 (a 1%nat ^ j))) (Y (a 2%nat) (b 2%nat - a 2%nat) k))). intros ((p & q) & r); cbn; lia.
    + refine (wp_weaken Quad _ _ _ _ (le_mul Quad _ _ _ _ _ _ _ _ (le_mul Quad _ _ _ _ _ _ _ _ (le_c Quad 0 0 0 (a 0%nat ^ i)) (X (a 1%nat) (b 1%nat - a 1%nat) j)) (Y (a 2%nat) (b 2%nat - a 2%nat) k))). intros ((p & q) & r); cbn; lia.
  - rewrite !rule_lsum, lsum_map, <- lsum_mul. apply lsum_ext. intros (((x & y) & z) & w) _. unfold g. ring.
Qed.

(** The documentation says that the weights sum up to the volume; the rule of one point for tetrahedra gives three quarters of it. *)
Theorem C89_tet_one_refuted gl tol v : gl 1%nat 1%nat = (0, 2) -> tol < volJ Tet v ->
  exists qs, getQpts gl tol Tet 1 v = Ok qs /\ fold_right Rplus 0 (map snd qs) = 3 / 4 * (volJ Tet v * refVol Tet).
Proof.
  intros E T. exists (map (phys Tet v) (refPts gl Tet 1)). split; [cbn [getQpts]; now apply (tet_ok gl tol); [lia|]|]. cbn [refPts]. unfold g1. cbn [seq map Nat.sub flat_map app]. rewrite E. cbn [fst snd phys refVol fold_right map flat_map app]. field.
Qed.

(** *** Non-vacuity *)
(** the rules of one and two points *)
Definition glEx (n k : nat) : R * R := match n with 1%nat => (0, 2) | _ => if (k =? 1)%nat then (sqrt (1 / 3), 1) else (- sqrt (1 / 3), 1) end.
Lemma pow_dint m : dint (fun x => x ^ m) (-1) 1 ((1 ^ S m - (-1) ^ S m) / INR (S m)).
Proof.
  assert (N : INR (S m) <> 0) by (apply not_0_INR; lia). exists (fun x => / INR (S m) * x ^ S m). split; [|field; exact N]. intros x.
  assert (X : derivable_pt_lim (fun x => / INR (S m) * x ^ S m) x (/ INR (S m) * (INR (S m) * x ^ m))) by (apply (derivable_pt_lim_scal (fun x => x ^ S m)), (derivable_pt_lim_pow x (S m))).
  replace (/ INR (S m) * (INR (S m) * x ^ m)) with (x ^ m) in X by (field; exact N). exact X.
Qed.
Example gauss1_ex : isGauss glEx 1.
Proof.
  split; [intros k Hk; cbn; lra|]. intros m Hm. pose proof (pow_dint m) as D. destruct m as [|[|m]]; [| |lia]; cbn [rsum glEx fst snd]; [replace (0 + 2 * 0 ^ 0) with ((1 ^ 1 - (-1) ^ 1) / INR 1)|replace (0 + 2 * 0 ^ 1) with ((1 ^ 2 - (-1) ^ 2) / INR 2)]; try exact D; cbn; field.
Qed.
Example gauss2_ex : isGauss glEx 2.
Proof.
  assert (S2 : sqrt (1 / 3) * sqrt (1 / 3) = 1 / 3) by (apply sqrt_sqrt; lra). assert (P : 0 < sqrt (1 / 3)) by (apply sqrt_lt_R0; lra). assert (Q : sqrt (1 / 3) < 1) by (rewrite <- sqrt_1 at 2; apply sqrt_lt_1; lra).
  split; [intros k Hk; cbn [glEx]; destruct (k =? 1)%nat; cbn [fst]; lra|]. intros m Hm. pose proof (pow_dint m) as D.
  replace (rsum 2 _) with ((1 ^ S m - (-1) ^ S m) / INR (S m)); [exact D|]. cbn [rsum glEx Nat.eqb fst snd]. set (s := sqrt (1 / 3)) in *. destruct m as [|[|[|[|m]]]]; [..|lia]; cbn [pow INR]; [field|field| |].
  - replace (s * (s * 1)) with (s * s) by ring. replace (- s * (- s * 1)) with (s * s) by ring. rewrite S2. field.
  - field.
Qed.
(** a skewed tetrahedron and a linear function *)
Definition tetEx : list (list R) := [[1; 3; 1; 2]; [0; 1; 2; 0]; [0; 0; 1; 3]].
Example exact_ex : isGauss glEx 2 /\ wellShaped (1 / 1000) Tet tetEx /\ admits Tet tetEx (exactDeg Tet 2) (fun x y z => 3 * z + 2).
Proof.
  split; [apply gauss2_ex|]. split; [unfold wellShaped, volJ, triple, edg, vx, tetEx; cbn; lra|]. exists [(3, (0, 0, 1)%nat); (2, (0, 0, 0)%nat)]. split; [intros c i j k [[= <- <- <- <-]|[[= <- <- <- <-]|[]]]; unfold totalDeg; cbn; lia|]. intros. cbn. ring.
Qed.
Definition boxEx : list (list R) := [[1; 3; 3; 1; 1; 3; 3; 1]; [0; 0; 5; 5; 0; 0; 5; 5]; [2; 2; 2; 2; 6; 6; 6; 6]].
Example box_ex : wellShaped (1 / 1000) Hex boxEx /\ isBox boxEx /\ admits Hex boxEx (exactDeg Hex 2) (fun x y z => x ^ 3 * y ^ 3 * z ^ 3).
Proof.
  split; [|split; [unfold isBox, edg, vx; cbn; lra|]].
  - split; [|unfold volJ, triple, edg, vx; cbn; lra]. intros [|[|[|[|d]]]]; unfold edg, vx, boxEx; cbn; lra.
  - right. split; [unfold isBox, edg, vx; cbn; lra|]. exists [(1, (3, 3, 3)%nat)]. split; [intros c i j k [[= <- <- <- <-]|[]]; unfold eachDeg; cbn; lia|]. intros. cbn. ring.
Qed.
Example shapes_ex : wellShaped (1 / 1000) Tria [[0; 2; 1]; [0; 1; 3]; [0; 0; 0]] /\ wellShaped (1 / 1000) Quad [[1; 3; 3; 1]; [0; 0; 5; 5]; [0; 0; 0; 0]] /\ volJ Tria [[0; 1; 2]; [0; 3; 1]; [0; 0; 0]] <= 1 / 1000.
Proof. split; [|split; [|cbn; unfold cross2, edg, vx; cbn; lra]]; cbn; unfold volJ, cross2, edg, vx; cbn; (repeat split; try lra; try (intros [|[|[|[|[|d]]]]]; cbn; lra)). Qed.
Example face_ex : isRect [[1; 1; 1; 1]; [4; 2; 2; 4]; [0; 0; 3; 3]] (fun d => nth d [1; 2; 0] 0) (fun d => nth d [1; 4; 3] 0) /\ plane 1 2 0.
Proof.
  split; [|right; right; reflexivity]. intros [|[|[|d]]] Hd; [..|lia]; unfold vx; cbn [nth]; (split; [lra|]); (split; [intros [|[|[|[|i]]]] Hi; [..|lia]; cbn [nth]; lra|]); split.
  1, 2: exists 0%nat; split; [lia|reflexivity].
  1: exists 1%nat; split; [lia|reflexivity]. 1: exists 0%nat; split; [lia|reflexivity].
  1: exists 0%nat; split; [lia|reflexivity]. exists 2%nat; split; [lia|reflexivity].
Qed.

Print Assumptions C89_exact.
Print Assumptions C89_volume.
Print Assumptions C89_inside.
Print Assumptions C89_reject.
Print Assumptions C89_face.
Print Assumptions C89_tet_one_refuted.
