(** Crossing numbers: a generic point of the surface lies in exactly one triangle; orientation of the sides. *)
From Coq Require Import QArith Qcanon Qround Lqa Sorting.Sorted Sorting.Permutation.
From Verif Require Import Util MeshSort Extrude ExtrudeSpec ExtrudeP ExtrudeG ExtrudeW.
Open Scope nat_scope.

(** ** From Qc to Q *)
Lemma t_add (a b : Qc) : (this (a + b)%Qc == this a + this b)%Q.
Proof. apply Qred_correct. Qed.
Lemma t_mul (a b : Qc) : (this (a * b)%Qc == this a * this b)%Q.
Proof. apply Qred_correct. Qed.

Lemma Qc_sub_neg (a b : Qc) : (a <= b)%Qc -> (a - b <= 0)%Qc.
Proof. intros H. apply Qcle_minus_iff in H. apply Qcle_minus_iff. replace (0 + - (a - b))%Qc with (b + - a)%Qc by ring. exact H. Qed.

Section X.
Variables x y : Qc.
Definition cross (p q : point) : Z :=
  if negb (qlt y (py p)) && qlt y (py q) then (if qlt 0 (leftOf x y p q) then 1%Z else 0%Z)
  else if negb (qlt y (py q)) && qlt y (py p) then (if qlt (leftOf x y p q) 0 then (-1)%Z else 0%Z) else 0%Z.
Lemma leftOf_anti p q : leftOf x y q p = (- leftOf x y p q)%Qc.
Proof. unfold leftOf. ring. Qed.
Lemma qlt_opp a : qlt 0 (- a) = qlt a 0.
Proof.
  apply eq_true_iff_eq. rewrite !qlt_true. split; intros H; apply Qclt_minus_iff in H; apply Qclt_minus_iff.
  - replace (0 + - a)%Qc with (- a + - 0)%Qc by ring. exact H.
  - replace (- a + - 0)%Qc with (0 + - a)%Qc by ring. exact H.
Qed.
Lemma qlt_opp' a : qlt (- a) 0 = qlt 0 a.
Proof. rewrite <- qlt_opp. f_equal. ring. Qed.
Lemma cross_anti p q : cross p q = (- cross q p)%Z.
Proof.
  unfold cross. rewrite (leftOf_anti p q), qlt_opp, qlt_opp'. destruct (qlt y (py p)), (qlt y (py q)); cbn; try reflexivity.
  - destruct (qlt (leftOf x y p q) 0); reflexivity.
  - destruct (qlt 0 (leftOf x y p q)); reflexivity.
Qed.

(** a counter-clockwise triangle counts once if the point is inside, otherwise it does not count *)
Lemma cross_tri a b c : (0 < pz (normal a b c))%Qc -> leftOf x y a b <> 0%Qc -> leftOf x y b c <> 0%Qc -> leftOf x y c a <> 0%Qc ->
  (cross a b + cross b c + cross c a)%Z = (if qlt 0 (leftOf x y a b) && qlt 0 (leftOf x y b c) && qlt 0 (leftOf x y c a) then 1%Z else 0%Z).
Proof.
  intros HN N1 N2 N3. unfold cross.
  assert (I1 : (leftOf x y b c * (py a - y) + leftOf x y c a * (py b - y) + leftOf x y a b * (py c - y) = 0)%Qc) by (unfold leftOf; ring).
  assert (I2 : (leftOf x y a b + leftOf x y b c + leftOf x y c a = pz (normal a b c))%Qc) by (unfold leftOf, normal, pz; cbn [snd]; ring).
  assert (ND : ~ ((py a - y)%Qc == 0 /\ (py b - y)%Qc == 0 /\ (py c - y)%Qc == 0)%Q).
  { intros (A & B & C). apply (Qc_is_canon _ 0%Qc) in A. apply (Qc_is_canon _ 0%Qc) in B. apply (Qc_is_canon _ 0%Qc) in C.
    assert (Z : pz (normal a b c) = 0%Qc).
    { unfold normal, pz. cbn [snd]. replace (py c - py a)%Qc with ((py c - y) - (py a - y))%Qc by ring. replace (py b - py a)%Qc with ((py b - y) - (py a - y))%Qc by ring.
      rewrite A, B, C. ring. }
    rewrite Z in HN. destruct (Qclt_not_eq _ _ HN). reflexivity. }
  rewrite <- I2 in HN. clear I2.
  assert (S : forall o, o <> 0%Qc -> (qlt 0 o = true /\ qlt o 0 = false /\ (0 < o)%Qc) \/ (qlt 0 o = false /\ qlt o 0 = true /\ (o < 0)%Qc)).
  { intros o No. destruct (qlt_tri 0 o) as [H|[H|H]]; [left|congruence|right]; (split; [auto|split; [auto|apply qlt_true; auto]]); apply qlt_asym; auto. }
  assert (Y : forall p, (qlt y (py p) = true /\ (0 < py p - y)%Qc) \/ (qlt y (py p) = false /\ (py p - y <= 0)%Qc)).
  { intros p. destruct (qlt y (py p)) eqn:E; [left|right]; split; auto; [apply Qc_sub_pos, qlt_true; auto|apply Qc_sub_neg, qlt_false; auto]. }
  pose proof (Y a) as Ya. pose proof (Y b) as Yb. pose proof (Y c) as Yc. apply S in N1, N2, N3. clear Y S.
  revert ND HN I1 N1 N2 N3 Ya Yb Yc.
  generalize (leftOf x y a b) (leftOf x y b c) (leftOf x y c a) (py a - y)%Qc (py b - y)%Qc (py c - y)%Qc (qlt y (py a)) (qlt y (py b)) (qlt y (py c)).
  intros o1 o2 o3 u v w ba bb bc ND HN I1 N1 N2 N3 Ya Yb Yc.
  apply (f_equal this) in I1. assert (J : (this o2 * this u + this o3 * this v + this o1 * this w == 0)%Q).
  { rewrite <- !t_mul, <- !t_add. rewrite I1. reflexivity. } clear I1.
  assert (H : (0 < this o1 + this o2 + this o3)%Q). { rewrite <- !t_add. exact HN. } clear HN.
  destruct N1 as [(-> & -> & N1)|(-> & -> & N1)], N2 as [(-> & -> & N2)|(-> & -> & N2)], N3 as [(-> & -> & N3)|(-> & -> & N3)],
    Ya as [(-> & Ya)|(-> & Ya)], Yb as [(-> & Yb)|(-> & Yb)], Yc as [(-> & Yc)|(-> & Yc)]; cbn; try reflexivity; exfalso;
  unfold Qclt, Qcle in *; change (this 0%Qc) with 0%Q in *; first [nra | apply ND; repeat split; nra].
Qed.
End X.

(** ** The surface *)
Lemma filter_one {A} (d : A) (b : A -> bool) l : length (filter b l) = 1 ->
  exists n, n < length l /\ b (nth n l d) = true /\ forall n', n' < length l -> b (nth n' l d) = true -> n' = n.
Proof.
  induction l as [|a l IH]; cbn [filter length]; [discriminate|]. destruct (b a) eqn:E; cbn [length].
  - intros H. injection H as H. apply length_zero_iff_nil in H. exists 0. split; [lia|]. split; [exact E|]. intros [|n] Hn B; [reflexivity|]. cbn [nth] in B.
    assert (I : In (nth n l d) (filter b l)) by (apply filter_In; split; [apply nth_In; lia|exact B]). rewrite H in I. destruct I.
  - intros H. destruct (IH H) as (n & Hn & B & U). exists (S n). split; [lia|]. split; [exact B|]. intros [|n'] Hn' B'; cbn [nth] in B'; [congruence|]. f_equal. apply U; auto. lia.
Qed.

Definition insideb (x y : Qc) (f : off) (t : tria) : bool := let '(a, b, c) := t in
  qlt 0 (leftOf x y (corner f a) (corner f b)) && qlt 0 (leftOf x y (corner f b) (corner f c)) && qlt 0 (leftOf x y (corner f c) (corner f a)).
Lemma insideb_ok x y f t : insideb x y f t = true <-> inside x y f t.
Proof. destruct t as [[a b] c]. unfold insideb, inside. rewrite !andb_true_iff, !qlt_true. tauto. Qed.

Lemma tot_inside x y f : generic x y f -> allTria f (fun a b c => 0 < pz (normal a b c))%Qc -> esum (cross x y) (edges f) = Z.of_nat (length (filter (insideb x y f) (oTri f))).
Proof.
  unfold generic, allTria, edges. induction (oTri f) as [|[[a b] c] l IH]; intros G O; [reflexivity|]. cbn [flat_map filter].
  rewrite esum_app, IH. 2:{ intros p q I. apply G. cbn [flat_map]. apply in_app_iff. auto. } 2:{ intros. apply O. right. auto. }
  cbn [esum]. assert (C := cross_tri x y (corner f a) (corner f b) (corner f c) (O a b c (or_introl eq_refl))).
  rewrite Z.add_0_r, Z.add_assoc. rewrite C by (apply G; cbn [flat_map app In]; auto). unfold insideb at 2.
  destruct (_ && _ && _); cbn [length]; lia.
Qed.

Section Top.
Variables (lv nx ny : nat) (xs ys : nat -> Qc) (zs : nat -> nat -> Qc) (m k : nat) (f : off).
Hypothesis HX : incr xs nx.
Hypothesis HY : incr ys ny.
Let R := 2 ^ lv.
Hypothesis Ex : nx = m * R + 1.
Hypothesis Ey : ny = k * R + 1.
Hypothesis T : topSpec lv nx ny xs ys zs m k f.

Lemma top_corner i j : i < nx -> j < ny -> corner f (i * ny + j) = gp xs ys zs i j.
Proof. intros Hi Hj. unfold corner. rewrite (tpPts _ _ _ _ _ _ _ _ _ T). apply nth_error_nth. apply grid_nth; auto. Qed.
Lemma top_up : allTria f (fun a b c => 0 < pz (normal a b c))%Qc.
Proof.
  intros a b c I. pose proof (tpGood _ _ _ _ _ _ _ _ _ T) as G. rewrite Forall_forall in G.
  destruct (G _ I) as (x1 & y1 & x2 & y2 & x3 & y3 & A & B & E & O). injection E as -> -> ->. rewrite !top_corner by tauto.
  specialize (O xs ys HX HY). unfold orient in O. cbn [fst snd] in O. unfold normal, gp. cbn [px py pz fst snd].
  match goal with H : (0 < ?e)%Qc |- (0 < ?e')%Qc => replace e' with e by ring; exact H end.
Qed.
Lemma top_one x y : generic x y f -> (xs 0 < x)%Qc -> (x < xs (nx - 1)%nat)%Qc -> (ys 0 < y)%Qc -> (y < ys (ny - 1)%nat)%Qc -> length (filter (insideb x y f) (oTri f)) = 1.
Proof.
  intros G X0 X1 Y0 Y1. apply Nat2Z.inj. rewrite <- (tot_inside x y f G top_up). rewrite (tpSum _ _ _ _ _ _ _ _ _ T) by apply cross_anti. fold R.
  assert (H0 : forall a n, rs (fun i => cross x y (gp xs ys zs (i * R) a) (gp xs ys zs (S i * R) a)) n = 0%Z).
  { intros a n. assert (E : forall i, cross x y (gp xs ys zs (i * R) a) (gp xs ys zs (S i * R) a) = 0%Z) by (intros i; unfold cross, gp; cbn [py fst snd]; destruct (qlt y (ys a)); reflexivity).
    induction n as [|n IH]; cbn [rs]; [reflexivity|]. rewrite IH, E. reflexivity. }
  rewrite !H0.
  assert (HR : 0 < R) by (apply Nat.neq_0_lt_0, Nat.pow_nonzero; lia).
  assert (V : forall X j, j < k -> leftOf x y (gp xs ys zs X (j * R)) (gp xs ys zs X (S j * R)) = ((xs X - x) * (ys (S j * R)%nat - ys (j * R)%nat))%Qc) by (intros; unfold leftOf, gp; cbn [px py fst snd]; ring).
  assert (D : forall j, j < k -> (ys (j * R)%nat < ys (S j * R)%nat)%Qc) by (intros; apply HY; nia).
  set (ind := fun j => if qlt y (ys (j * R)) then 0%Z else 1%Z).
  assert (HR1 : rs (fun j => cross x y (gp xs ys zs (m * R) (j * R)) (gp xs ys zs (m * R) (S j * R))) k = (ind 0%nat - ind k)%Z).
  { replace (ind 0%nat - ind k)%Z with (- (ind k - ind 0%nat))%Z by ring. rewrite <- (rs_tel ind k), <- rs_opp. apply rs_ext. intros j Hj. unfold cross. rewrite V by auto.
    assert (P : (0 < (xs (m * R)%nat - x) * (ys (S j * R)%nat - ys (j * R)%nat))%Qc).
    { apply Qc_mul_pos; apply Qc_sub_pos; [|apply D; auto]. replace (m * R) with (nx - 1) by lia. exact X1. }
    apply qlt_true in P. rewrite P, (qlt_asym _ _ P). unfold ind, gp. cbn [py fst snd].
    destruct (qlt y (ys (j * R))) eqn:A; destruct (qlt y (ys (S j * R))) eqn:B; cbn; try reflexivity.
    exfalso. apply qlt_true in A. apply qlt_false in B. destruct (Qclt_not_le _ _ (Qclt_trans _ _ _ A (D j Hj)) B). }
  assert (HL : rs (fun j => cross x y (gp xs ys zs 0 (j * R)) (gp xs ys zs 0 (S j * R))) k = 0%Z).
  { rewrite (rs_ext _ (fun _ => 0%Z)); [clear; induction k as [|n IH]; cbn [rs]; auto; rewrite IH; reflexivity|]. intros j Hj. unfold cross. rewrite V by auto.
    assert (P : (0 < (x - xs 0%nat) * (ys (S j * R)%nat - ys (j * R)%nat))%Qc) by (apply Qc_mul_pos; apply Qc_sub_pos; [exact X0|apply D; auto]).
    apply qlt_true in P. replace ((xs 0%nat - x) * (ys (S j * R)%nat - ys (j * R)%nat))%Qc with (- ((x - xs 0%nat) * (ys (S j * R)%nat - ys (j * R)%nat)))%Qc by ring.
    rewrite qlt_opp, qlt_opp', P, (qlt_asym _ _ P). unfold gp. cbn [py fst snd].
    destruct (qlt y (ys (j * R))) eqn:A; destruct (qlt y (ys (S j * R))) eqn:B; cbn; try reflexivity.
    exfalso. apply qlt_true in A. apply qlt_false in B. destruct (Qclt_not_le _ _ (Qclt_trans _ _ _ A (D j Hj)) B). }
  rewrite HR1, HL. unfold ind. replace (k * R) with (ny - 1) by lia. cbn [Nat.mul]. apply qlt_true in Y1. rewrite Y1. apply qlt_true, qlt_asym in Y0. rewrite Y0. reflexivity.
Qed.
End Top.

(** ** Orientation of regular files *)
Lemma regular_all N K g f Q : regular N K g f ->
  (forall i j, i < N -> j < K -> Q (g i j) (g (S i) j) (g (S i) (S j)) /\ Q (g i j) (g (S i) (S j)) (g i (S j))) -> allTria f Q.
Proof.
  intros G H a b c I. destruct (rgTri _ _ _ _ G _ I) as (i & j & Hi & Hj & T). destruct (H i j Hi Hj) as [H1 H2].
  assert (C1 := rgPt _ _ _ _ G i j ltac:(lia) ltac:(lia)). assert (C2 := rgPt _ _ _ _ G (S i) j ltac:(lia) ltac:(lia)).
  assert (C3 := rgPt _ _ _ _ G (S i) (S j) ltac:(lia) ltac:(lia)). assert (C4 := rgPt _ _ _ _ G i (S j) ltac:(lia) ltac:(lia)).
  replace (S i * (K + 1) + j) with (i * (K + 1) + j + (K + 1)) in C2 by lia. replace (S i * (K + 1) + S j) with (i * (K + 1) + j + (K + 1) + 1) in C3 by lia.
  replace (i * (K + 1) + S j) with (i * (K + 1) + j + 1) in C4 by lia.
  cbn [snd triasBlTr In] in T. destruct T as [T|[T|[]]]; injection T as <- <- <-; rewrite ?C1, ?C2, ?C3, ?C4; assumption.
Qed.
