(** Integration of time series: property C38. *)
From Coq Require Import QArith Qminmax Qround Qfield Lqa.
From Verif Require Import Util MatSmall Props_Mat Series.
Open Scope nat_scope.

(** ** Specification *)
Section Spec.
Variables (dx xs : Q) (vals : list Q) (na : Q).

(** sampling points and values *)
Definition pt_ (j : nat) : Q := (xs + qn j * dx)%Q.
Definition val_ (j : nat) : Q := nth j vals 0%Q.
Definition end_ : Q := pt_ (length vals - 1).
(** linear interpolation in interval j (between the sampling points j and j+1) *)
Definition line (j : nat) (x : Q) : Q := (val_ j + (x - pt_ j) / dx * (val_ (j + 1) - val_ j))%Q.
(** nearest point of an interval *)
Definition clamp (lo hi x : Q) : Q := Qmax lo (Qmin hi x).
(** area under the interpolation in the part of interval j which belongs to [x1,x2]: a trapezoid *)
Definition area (x1 x2 : Q) (j : nat) : Q :=
  let a := clamp (pt_ j) (pt_ (j + 1)) x1 in let b := clamp (pt_ j) (pt_ (j + 1)) x2 in ((b - a) * (line j a + line j b) / 2)%Q.
(** integral over [x1,x2] of the function which interpolates the samples and is [na] before the first and after the last sample *)
Definition integral (x1 x2 : Q) : Q :=
  (na * (Qmin x2 xs - Qmin x1 xs) + qsum (map (area x1 x2) (seq 0 (length vals - 1))) + na * (Qmax x2 end_ - Qmax x1 end_))%Q.
End Spec.

(** the interval [x1,x2] does not lie strictly between two neighbouring sampling points *)
Definition hasSample (dx xs : Q) (vals : list Q) (x1 x2 : Q) : Prop :=
  (x2 < xs)%Q \/ (end_ dx xs vals < x1)%Q \/ exists j, j < length vals /\ (x1 <= pt_ dx xs j)%Q /\ (pt_ dx xs j <= x2)%Q.

(** the interval does not end shortly before the first and does not start shortly after the last sampling point (tolerance of the code) *)
Definition clearEnds (tol dx xs : Q) (vals : list Q) (x1 x2 : Q) : Prop :=
  ((x2 <= xs - tol)%Q \/ (xs <= x2)%Q) /\ ((end_ dx xs vals + tol <= x1)%Q \/ (x1 <= end_ dx xs vals)%Q).

(** ** Proof *)

Lemma qlt_true a b : qlt a b = true <-> (a < b)%Q.
Proof. unfold qlt. rewrite Qlt_alt. destruct (a ?= b)%Q; split; congruence. Qed.
Lemma qlt_false a b : qlt a b = false <-> (b <= a)%Q.
Proof.
  rewrite <- Bool.not_true_iff_false, qlt_true. split; intros H; [apply Qnot_lt_le; auto|apply Qle_not_lt; auto].
Qed.

Lemma trunc_spec q : (0 <= q)%Q -> (qn (trunc q) <= q)%Q /\ (q < qn (trunc q) + 1)%Q.
Proof.
  intros H. unfold qn, trunc. assert (F := Qfloor_le q). assert (G := Qlt_floor q). assert (Z0 : (0 <= Qfloor q)%Z).
  { change 0%Z with (Qfloor 0). apply Qfloor_resp_le. auto. }
  rewrite Z2Nat.id by auto. split; auto. rewrite inject_Z_plus in G. auto.
Qed.

Lemma qn_S n : (qn (n + 1) == qn n + 1)%Q.
Proof. unfold qn. rewrite Nat2Z.inj_add, inject_Z_plus. reflexivity. Qed.
Lemma qn_le a b : a <= b -> (qn a <= qn b)%Q.
Proof. intros H. unfold qn. rewrite <- Zle_Qle. lia. Qed.
Lemma qn_lt_inv a b : (qn a < qn b)%Q -> a < b.
Proof. unfold qn. rewrite <- Zlt_Qlt. lia. Qed.
Lemma qn_0 : qn 0 = 0%Q.
Proof. reflexivity. Qed.

Lemma qsum_app l1 l2 : (qsum (l1 ++ l2) == qsum l1 + qsum l2)%Q.
Proof. unfold qsum. induction l1 as [|x l IH]; cbn; [ring|]. rewrite IH. ring. Qed.

(** sum of f over [a,b) *)
Definition sumR (f : nat -> Q) (a b : nat) : Q := qsum (map f (seq a (b - a))).

Lemma sumR_split f a b c : a <= b -> b <= c -> (sumR f a c == sumR f a b + sumR f b c)%Q.
Proof.
  intros H1 H2. unfold sumR. rewrite <- qsum_app, <- map_app. replace (c - a) with ((b - a) + (c - b)) by lia. rewrite seq_app.
  replace (a + (b - a)) with b by lia. reflexivity.
Qed.

Lemma sumR_ext f g a b : (forall j, a <= j < b -> (f j == g j)%Q) -> (sumR f a b == sumR g a b)%Q.
Proof.
  intros H. unfold sumR. assert (E : forall j, In j (seq a (b - a)) -> (f j == g j)%Q) by (intros j Hj; apply in_seq in Hj; apply H; lia).
  induction (seq a (b - a)) as [|j l IH]; cbn; [reflexivity|]. rewrite E by (left; auto). unfold qsum in IH. rewrite IH; [reflexivity|]. intros; apply E; right; auto.
Qed.

Lemma sumR_zero f a b : (forall j, a <= j < b -> (f j == 0)%Q) -> (sumR f a b == 0)%Q.
Proof.
  intros H. rewrite (sumR_ext f (fun _ => 0%Q)) by auto. unfold sumR. induction (seq a (b - a)) as [|j l IH]; cbn; [reflexivity|]. unfold qsum in IH. rewrite IH. ring.
Qed.

Lemma sumR_one f a : (sumR f a (a + 1) == f a)%Q.
Proof. unfold sumR. replace (a + 1 - a) with 1 by lia. cbn. ring. Qed.

Section Proof38.
Variables (tol dx xs : Q) (vals : list Q) (na x1 x2 : Q).
Hypothesis TOL : (0 < tol)%Q.
Hypothesis DX : (0 < dx)%Q.
Hypothesis NE : vals <> [].
Hypothesis ORD : (x1 <= x2)%Q.
Let N := length vals.
Local Notation P := (pt_ dx xs).
Local Notation V := (val_ vals).

Lemma N_pos : 0 < N.
Proof. unfold N. destruct vals; [congruence|cbn; lia]. Qed.

Lemma P_S j : (P (j + 1) == P j + dx)%Q.
Proof. unfold pt_. rewrite qn_S. ring. Qed.
Lemma P_0 : (P 0 == xs)%Q.
Proof. unfold pt_. rewrite qn_0. ring. Qed.
Lemma P_le a b : a <= b -> (P a <= P b)%Q.
Proof. intros H. unfold pt_. apply qn_le in H. apply (Qmult_le_compat_r _ _ dx) in H; lra. Qed.

(** sampling point before a position *)
Lemma idx_spec x : (xs <= x)%Q -> let n := trunc (Qmax ((x - xs) / dx) 0) in (P n <= x)%Q /\ (x < P (n + 1))%Q.
Proof.
  intros H n. assert (D : (0 <= (x - xs) / dx)%Q) by (apply Qle_shift_div_l; lra).
  assert (M : (Qmax ((x - xs) / dx) 0 == (x - xs) / dx)%Q) by (apply Q.max_l; auto).
  assert (H0 : (0 <= Qmax ((x - xs) / dx) 0)%Q) by lra.
  destruct (trunc_spec _ H0) as [T1 T2]. fold n in T1, T2. rewrite M in T1, T2. rewrite P_S. unfold pt_.
  assert (E : (x - xs == (x - xs) / dx * dx)%Q) by (field; lra).
  apply (Qmult_le_compat_r _ _ dx) in T1; [|lra]. apply (Qmult_lt_r _ _ dx DX) in T2. lra.
Qed.

Lemma idx_neg x : (x <= xs)%Q -> trunc (Qmax ((x - xs) / dx) 0) = 0.
Proof.
  intros H. assert (D : ((x - xs) / dx <= 0)%Q) by (apply Qle_shift_div_r; lra).
  assert (M : (Qmax ((x - xs) / dx) 0 == 0)%Q) by (apply Q.max_r; auto). unfold trunc. rewrite M. reflexivity.
Qed.

(** first covered sampling point, before clamping *)
Lemma fst_spec : let n := trunc (Qmax ((x1 - xs + dx) / dx) 0) in
  ((x1 < xs)%Q -> n = 0) /\ ((xs <= x1)%Q -> 0 < n /\ (P (n - 1) <= x1)%Q /\ (x1 < P n)%Q).
Proof.
  intros n. split; intros H.
  - assert (D : ((x1 - xs + dx) / dx < 1)%Q) by (apply Qlt_shift_div_r; lra).
    assert (M : (0 <= Qmax ((x1 - xs + dx) / dx) 0)%Q) by apply Q.le_max_r.
    assert (M2 : (Qmax ((x1 - xs + dx) / dx) 0 < 1)%Q) by (apply Q.max_lub_lt; lra).
    destruct (trunc_spec _ M) as [T1 T2]. fold n in T1, T2. assert (qn n < qn 1)%Q by (change (qn 1) with 1%Q; lra). apply qn_lt_inv in H0. lia.
  - assert (E : (x1 - xs + dx == (x1 + dx) - xs)%Q) by ring.
    assert (En : n = trunc (Qmax (((x1 + dx) - xs) / dx) 0)) by (unfold n, trunc; rewrite E; reflexivity).
    destruct (idx_spec (x1 + dx) ltac:(lra)) as [I1 I2]. cbv zeta in I1, I2. rewrite <- En in I1, I2.
    assert (0 < n). { destruct n; [|lia]. exfalso. rewrite P_S, P_0 in I2. lra. }
    split; [auto|]. replace n with ((n - 1) + 1) in I1 by lia. rewrite P_S in I1, I2. split; lra.
Qed.

Lemma clamp_low lo hi x : (lo <= hi)%Q -> (x <= lo)%Q -> (clamp lo hi x == lo)%Q.
Proof. intros H1 H2. unfold clamp. destruct (Q.min_spec hi x) as [[? E]|[? E]], (Q.max_spec lo (Qmin hi x)) as [[? F]|[? F]]; lra. Qed.
Lemma clamp_high lo hi x : (lo <= hi)%Q -> (hi <= x)%Q -> (clamp lo hi x == hi)%Q.
Proof. intros H1 H2. unfold clamp. destruct (Q.min_spec hi x) as [[? E]|[? E]], (Q.max_spec lo (Qmin hi x)) as [[? F]|[? F]]; lra. Qed.
Lemma clamp_mid lo hi x : (lo <= x)%Q -> (x <= hi)%Q -> (clamp lo hi x == x)%Q.
Proof. intros H1 H2. unfold clamp. destruct (Q.min_spec hi x) as [[? E]|[? E]], (Q.max_spec lo (Qmin hi x)) as [[? F]|[? F]]; lra. Qed.

Lemma area_eq j a b : (clamp (P j) (P (j + 1)) x1 == a)%Q -> (clamp (P j) (P (j + 1)) x2 == b)%Q ->
  (area dx xs vals x1 x2 j == (b - a) * (line dx xs vals j a + line dx xs vals j b) / 2)%Q.
Proof. intros E1 E2. unfold area, line. cbv zeta. rewrite E1, E2. reflexivity. Qed.

Lemma P_step j : (P j <= P (j + 1))%Q.
Proof. rewrite P_S. lra. Qed.

Lemma area_before j : (x2 <= P j)%Q -> (area dx xs vals x1 x2 j == 0)%Q.
Proof.
  intros H. assert (S := P_step j). rewrite (area_eq j (P j) (P j)) by (apply clamp_low; lra). unfold Qdiv. ring.
Qed.
Lemma area_after j : (P (j + 1) <= x1)%Q -> (area dx xs vals x1 x2 j == 0)%Q.
Proof.
  intros H. assert (S := P_step j). rewrite (area_eq j (P (j + 1)) (P (j + 1))) by (apply clamp_high; lra). unfold Qdiv. ring.
Qed.

(** the loop over the covered intervals *)
Lemma loop_ok F L : F <= L -> L < N -> exists s,
  for_ (F + 1) (L + 1) (fun pt s => a <- rd vals pt;; b <- rd vals (pt - 1);; Ok (s + (dx * (1#2)) * (a - b) + b * dx)%Q) 0%Q = Ok s /\
  (s == sumR (fun j => dx * (V j + V (j + 1)) / 2) F L)%Q.
Proof.
  intros H1 H2.
  destruct (for_ok (fun k s => (s == sumR (fun j => dx * (V j + V (j + 1)) / 2) F (k - 1))%Q) (F + 1) (L + 1)
    (fun pt s => a <- rd vals pt;; b <- rd vals (pt - 1);; Ok (s + (dx * (1#2)) * (a - b) + b * dx)%Q) 0%Q) as (s & E & I).
  - lia.
  - unfold sumR. replace (F + 1 - 1 - F) with 0 by lia. reflexivity.
  - intros k s Hk I. rewrite (rd_ok _ k 0%Q), (rd_ok _ (k - 1) 0%Q) by (fold N; lia). cbn [bind]. eexists. split; [reflexivity|].
    rewrite (sumR_split _ F (k - 1) (S k - 1)) by lia. replace (S k - 1) with ((k - 1) + 1) by lia. rewrite sumR_one, I. unfold val_.
    replace (k - 1 + 1) with k by lia. field.
  - exists s. split; [auto|]. replace (L + 1 - 1) with L in I by lia. auto.
Qed.

Lemma integral_sumR : (integral dx xs vals na x1 x2 == na * (Qmin x2 xs - Qmin x1 xs) + sumR (area dx xs vals x1 x2) 0 (N - 1) + na * (Qmax x2 (P (N - 1)) - Qmax x1 (P (N - 1))))%Q.
Proof. unfold integral, sumR, end_. rewrite Nat.sub_0_r. reflexivity. Qed.

Lemma area_full j : (x1 <= P j)%Q -> (P (j + 1) <= x2)%Q -> (area dx xs vals x1 x2 j == dx * (V j + V (j + 1)) / 2)%Q.
Proof.
  intros H1 H2. assert (S := P_step j). rewrite (area_eq j (P j) (P (j + 1))) by (apply clamp_low || apply clamp_high; lra).
  unfold line. rewrite P_S. field. lra.
Qed.

Hypothesis HS : hasSample dx xs vals x1 x2.
Hypothesis CE : clearEnds tol dx xs vals x1 x2.

Lemma integrate_ok : exists s, integrate tol dx xs vals x1 x2 na = Ok s /\ (s == integral dx xs vals na x1 x2)%Q.
Proof.
  assert (NP := N_pos). unfold integrate. fold N. destruct (Nat.eqb_spec N 0) as [E0|_]; [lia|]. cbv zeta.
  destruct CE as [C1 C2]. fold N in C2. unfold end_ in C2. fold N in C2. assert (PE : (xs + qn (N - 1) * dx == P (N - 1))%Q) by reflexivity.
  set (f0 := trunc (Qmax ((x1 - xs + dx) / dx) 0)). set (l0 := trunc (Qmax ((x2 - xs) / dx) 0)).
  set (L := Nat.min l0 (N - 1)). set (F := Nat.min f0 L).
  destruct (fst_spec) as [F1 F2]. fold f0 in F1, F2.
  destruct (loop_ok F L ltac:(lia) ltac:(lia)) as (s & Es & Vs). rewrite Es. cbn [bind]. clear Es.
  assert (PF : (xs + qn F * dx == P F)%Q) by reflexivity. assert (PL : (xs + qn L * dx == P L)%Q) by reflexivity.
  assert (P0N := P_le 0 (N - 1) ltac:(lia)). rewrite P_0 in P0N.
  (* outside *)
  destruct (Qlt_le_dec x2 xs) as [Hb|Hb].
  { (* before the series *)
    assert (l0 = 0) by (apply idx_neg; lra). assert (f0 = 0) by (apply F1; lra). assert (L = 0) by lia. assert (F = 0) by lia. rewrite H1, H2 in *.
    cbn [Nat.ltb Nat.leb andb bind]. assert (B : qlt xs (x2 + tol) = false) by (apply qlt_false; lra). rewrite B. cbn [andb]. rewrite andb_false_r.
    eexists. split; [reflexivity|]. rewrite integral_sumR, Vs. rewrite (sumR_zero (area dx xs vals x1 x2)).
    - unfold sumR. cbn [Nat.sub seq map qsum fold_right]. rewrite qn_0. rewrite (Q.min_l x2 xs), (Q.min_l x1 xs), (Q.max_r x2 (P (N - 1))), (Q.max_r x1 (P (N - 1))) by lra. ring.
    - intros j Hj. apply area_before. assert (X := P_le 0 j ltac:(lia)). rewrite P_0 in X. lra. }
  assert (IL := idx_spec x2 Hb). cbv zeta in IL. fold l0 in IL. destruct IL as [L1 L2].
  assert (LX : (P L <= x2)%Q) by (assert (X := P_le L l0 ltac:(lia)); lra).
  destruct (Qlt_le_dec (P (N - 1)) x1) as [Ha|Ha].
  { (* after the series *)
    assert (f0 > N - 1). { destruct F2 as (_ & _ & X); [lra|]. destruct (Nat.le_gt_cases f0 (N - 1)) as [Y|Y]; auto. apply P_le in Y. lra. }
    assert (N <= l0 + 1). { destruct (Nat.le_gt_cases N (l0 + 1)) as [Y|Y]; auto. assert (X := P_le (l0 + 1) (N - 1) ltac:(lia)). lra. }
    assert (L = N - 1) by lia. assert (F = N - 1) by lia. rewrite H1, H2 in *.
    assert (B : qlt (x1 - tol) (xs + qn (N - 1) * dx) = false) by (apply qlt_false; rewrite PE; lra). rewrite B, !andb_false_r. cbn [bind]. rewrite Nat.ltb_irrefl. cbn [andb].
    eexists. split; [reflexivity|]. rewrite integral_sumR, Vs, PE. rewrite (sumR_zero (area dx xs vals x1 x2)).
    - unfold sumR. rewrite Nat.sub_diag. cbn [seq map qsum fold_right]. rewrite (Q.min_r x2 xs), (Q.min_r x1 xs), (Q.max_l x2 (P (N - 1))), (Q.max_l x1 (P (N - 1))) by lra. ring.
    - intros j Hj. apply area_after. assert (X := P_le (j + 1) (N - 1) ltac:(lia)). lra. }
  (* overlap with the series: there is a sample in the interval *)
  assert (exists j, j < N /\ (x1 <= P j)%Q /\ (P j <= x2)%Q) as (j & Hj & J1 & J2).
  { destruct HS as [X|[X|X]]; [lra|unfold end_ in X; fold N in X; lra|exact X]. }
  assert (JL : j <= L).
  { assert (j <= l0). { destruct (Nat.le_gt_cases j l0) as [Y|Y]; auto. assert (X := P_le (l0 + 1) j ltac:(lia)). lra. } lia. }
  (* right part: either within interval L or after the series *)
  assert (RT : (L = N - 1 \/ (L < N - 1 /\ (x2 < P (L + 1))%Q))).
  { destruct (Nat.eq_dec L (N - 1)); [auto|right]. assert (L = l0) by lia. split; [lia|]. rewrite H. auto. }
  (* left part *)
  assert (LF : (F = 0 /\ (x1 <= P F)%Q /\ (x1 < xs)%Q) \/ (x1 == P F)%Q \/ (0 < F /\ (P (F - 1) <= x1)%Q /\ (x1 < P F)%Q)).
  { destruct (Qlt_le_dec x1 xs) as [X|X].
    - left. assert (F = 0) by (unfold F; rewrite (F1 X); reflexivity). rewrite H, P_0. split; [auto|]. lra.
    - destruct (F2 X) as (Y1 & Y2 & Y3). assert (f0 <= j + 1).
      { destruct (Nat.le_gt_cases f0 (j + 1)) as [Z|Z]; auto. assert (W := P_le (j + 1) (f0 - 1) ltac:(lia)). assert (W2 := P_S j). lra. }
      destruct (Nat.eq_dec F f0) as [->|Ne]; [right; right; auto|]. right. left. assert (f0 = j + 1 /\ L = j /\ F = j) as (Q1 & Q2 & Q3) by lia.
      rewrite Q1 in Y2. replace (j + 1 - 1) with j in Y2 by lia. rewrite Q3. lra. }
  assert (FX : (x1 <= P F)%Q) by (destruct LF as [(_ & X & _)|[X|(_ & _ & X)]]; lra).
  assert (FL : F <= L) by lia.
  (* the sum of the areas *)
  assert (SA : (sumR (area dx xs vals x1 x2) F L == sumR (fun j => dx * (V j + V (j + 1)) / 2) F L)%Q).
  { apply sumR_ext. intros i Hi. apply area_full; [assert (X := P_le F i ltac:(lia)); lra|assert (X := P_le (i + 1) L ltac:(lia)); lra]. }
  assert (IT : (integral dx xs vals na x1 x2 == na * (Qmin x2 xs - Qmin x1 xs) + (sumR (area dx xs vals x1 x2) 0 F + (s + sumR (area dx xs vals x1 x2) L (N - 1))) + na * (Qmax x2 (P (N - 1)) - Qmax x1 (P (N - 1))))%Q).
  { rewrite integral_sumR, (sumR_split _ 0 F (N - 1)), (sumR_split _ F L (N - 1)), SA, Vs by lia. reflexivity. }
  (* left *)
  assert (exists s1, (if (0 <? F) && (qlt xs (x1 + tol) && qlt (x1 - tol) (xs + qn (N - 1) * dx)) then
          a <- rd vals (F - 1);; b <- rd vals F;; Ok (s + (1#2) * (xs + qn F * dx - x1) * ((xs + qn F * dx - x1) / dx) * (a - b) + b * (xs + qn F * dx - x1))%Q
        else Ok (s + na * (xs + qn F * dx - x1))%Q) = Ok s1 /\ (s1 == s + na * (xs - Qmin x1 xs) + sumR (area dx xs vals x1 x2) 0 F)%Q) as (s1 & E1 & V1).
  { destruct LF as [(X1 & X2 & X3)|[X|(X1 & X2 & X3)]].
    - rewrite X1. cbn [Nat.ltb Nat.leb andb]. eexists. split; [reflexivity|]. rewrite qn_0, (Q.min_l x1 xs) by lra. unfold sumR. cbn. ring.
    - assert (Z : (sumR (area dx xs vals x1 x2) 0 F == 0)%Q).
      { apply sumR_zero. intros i Hi. apply area_after. assert (Y := P_le (i + 1) F ltac:(lia)). lra. }
      assert (Xs : (xs <= x1)%Q) by (assert (Y := P_le 0 F ltac:(lia)); rewrite P_0 in Y; lra).
      assert (D0 : (xs + qn F * dx - x1 == 0)%Q) by (rewrite PF, X; ring).
      destruct (_ && _).
      + rewrite (rd_ok _ (F - 1) 0%Q), (rd_ok _ F 0%Q) by (fold N; lia). cbn [bind]. eexists. split; [reflexivity|]. rewrite Z, D0, (Q.min_r x1 xs) by lra. field. lra.
      + eexists. split; [reflexivity|]. rewrite Z, D0, (Q.min_r x1 xs) by lra. ring.
    - apply Nat.ltb_lt in X1 as X1'. rewrite X1'. assert (Xs : (xs <= x1)%Q) by (assert (Y := P_le 0 (F - 1) ltac:(lia)); rewrite P_0 in Y; lra).
      assert (B1 : qlt xs (x1 + tol) = true) by (apply qlt_true; lra). assert (B2 : qlt (x1 - tol) (xs + qn (N - 1) * dx) = true) by (apply qlt_true; rewrite PE; lra).
      rewrite B1, B2. cbn [andb]. rewrite (rd_ok _ (F - 1) 0%Q), (rd_ok _ F 0%Q) by (fold N; lia). cbn [bind]. eexists. split; [reflexivity|].
      rewrite (sumR_split _ 0 (F - 1) F) by lia. rewrite (sumR_zero _ 0 (F - 1)).
      2:{ intros i Hi. apply area_after. assert (Y := P_le (i + 1) (F - 1) ltac:(lia)). lra. }
      assert (EF : F = (F - 1) + 1) by lia. rewrite (Q.min_r x1 xs) by lra. rewrite EF at 8. rewrite sumR_one.
      assert (PS := P_S (F - 1)). rewrite <- EF in PS.
      rewrite (area_eq (F - 1) x1 (P F)) by (rewrite <- EF; apply clamp_mid || apply clamp_high; try lra; assert (Y := P_le F L ltac:(lia)); lra).
      unfold line. rewrite <- EF, PF. unfold val_. assert (PQ : (P (F - 1) == P F - dx)%Q) by lra. rewrite PQ. field. lra. }
  rewrite E1. cbn [bind]. clear E1.
  destruct RT as [RT|[R1 R2]].
  - rewrite RT, Nat.ltb_irrefl in *. cbn [andb]. eexists. split; [reflexivity|]. rewrite V1, IT, PE.
    rewrite (Q.max_l x2 (P (N - 1))), (Q.max_r x1 (P (N - 1))), (Q.min_r x2 xs) by lra. unfold sumR at 3. rewrite Nat.sub_diag. cbn [seq map qsum fold_right]. ring.
  - apply Nat.ltb_lt in R1 as R1'. rewrite R1'. assert (B1 : qlt xs (x2 + tol) = true) by (apply qlt_true; lra).
    assert (B2 : qlt (x2 - tol) (xs + qn (N - 1) * dx) = true) by (apply qlt_true; rewrite PE; assert (Y := P_le (L + 1) (N - 1) ltac:(lia)); lra).
    rewrite B1, B2. cbn [andb]. rewrite (rd_ok _ (L + 1) 0%Q), (rd_ok _ L 0%Q) by (fold N; lia). cbn [bind]. eexists. split; [reflexivity|].
    rewrite IT, (sumR_split _ L (L + 1) (N - 1)) by lia. rewrite (sumR_zero _ (L + 1) (N - 1)).
    2:{ intros i Hi. apply area_before. assert (Y := P_le (L + 1) i ltac:(lia)). lra. }
    rewrite sumR_one, V1. assert (Y := P_le (L + 1) (N - 1) ltac:(lia)).
    rewrite (Q.max_r x2 (P (N - 1))), (Q.max_r x1 (P (N - 1))), (Q.min_r x2 xs) by lra.
    rewrite (area_eq L (P L) x2) by (apply clamp_mid || apply clamp_low; try lra; assert (Y2 := P_le F L ltac:(lia)); assert (Y3 := P_step L); lra).
    unfold line. rewrite PL. unfold val_. field. lra.
Qed.

End Proof38.

(** C38: the integral is exact if the interval contains a sampling point (or lies outside of the series).
    Partial: for intervals strictly between two neighbouring sampling points the code is wrong ([C38_fine_steps_refuted]),
    and intervals ending within the tolerance of the ends of the series are extrapolated. *)
Theorem C38_integral_partial tol dx xs vals na x1 x2 : (0 < tol)%Q -> (0 < dx)%Q -> vals <> [] -> (x1 <= x2)%Q ->
  hasSample dx xs vals x1 x2 -> clearEnds tol dx xs vals x1 x2 ->
  exists s, integrate tol dx xs vals x1 x2 na = Ok s /\ (s == integral dx xs vals na x1 x2)%Q.
Proof. intros. apply integrate_ok; auto. Qed.
Print Assumptions C38_integral_partial.

Example C38_integral_ex : hasSample (1#2) 1 [0;3;4;1]%Q (5#4) (9#4) /\ clearEnds (1#1000) (1#2) 1 [0;3;4;1]%Q (5#4) (9#4) /\
  exists s, integrate (1#1000) (1#2) 1 [0;3;4;1]%Q (5#4) (9#4) 0 = Ok s /\ (s == 25#8)%Q.
Proof.
  split; [|split].
  - right. right. exists 1. unfold pt_, qn. cbn. split; [lia|]. split; apply Qle_bool_iff; reflexivity.
  - unfold clearEnds, end_, pt_, qn. cbn. split; right; apply Qle_bool_iff; reflexivity.
  - eexists. split; [reflexivity|]. vm_compute. reflexivity.
Qed.

(** C38: in particular, the integral is exact if the interval is at least as long as the sampling distance. *)
Theorem C38_coarse_steps tol dx xs vals na x1 x2 : (0 < tol)%Q -> (0 < dx)%Q -> vals <> [] -> (x1 + dx <= x2)%Q ->
  clearEnds tol dx xs vals x1 x2 ->
  exists s, integrate tol dx xs vals x1 x2 na = Ok s /\ (s == integral dx xs vals na x1 x2)%Q.
Proof.
  intros T D NE L CE. apply C38_integral_partial; auto; [lra|].
  destruct (Qlt_le_dec x2 xs) as [H1|H1]; [left; auto|right]. destruct (Qlt_le_dec (end_ dx xs vals) x1) as [H2|H2]; [left; auto|right].
  unfold end_ in H2. assert (NP := N_pos vals NE).
  assert (IL := idx_spec dx xs D x2 H1). cbv zeta in IL. set (l0 := trunc (Qmax ((x2 - xs) / dx) 0)) in IL. destruct IL as [I1 I2].
  exists (Nat.min l0 (length vals - 1)). split; [lia|]. rewrite (P_S dx xs) in I2.
  destruct (Nat.le_gt_cases l0 (length vals - 1)) as [H|H].
  - rewrite Nat.min_l by auto. split; lra.
  - rewrite Nat.min_r by lia. split; [lra|]. assert (X := P_le dx xs D (length vals - 1) l0 ltac:(lia)). lra.
Qed.
Print Assumptions C38_coarse_steps.

(** C38, negative part: if both ends lie between the same two sampling points, the result is wrong. *)
Theorem C38_fine_steps_refuted : exists tol dx xs vals na x1 x2 s,
  (0 < tol)%Q /\ (0 < dx)%Q /\ vals <> [] /\ (x1 <= x2)%Q /\ clearEnds tol dx xs vals x1 x2 /\
  integrate tol dx xs vals x1 x2 na = Ok s /\ ~ (s == integral dx xs vals na x1 x2)%Q.
Proof.
  exists (1#1000)%Q, 1%Q, 0%Q, [0;0;4]%Q, 0%Q, (5#4)%Q, (3#2)%Q. eexists.
  split; [reflexivity|]. split; [reflexivity|]. split; [discriminate|]. split; [discriminate|].
  split; [split; right; apply Qle_bool_iff; reflexivity|]. split; [reflexivity|]. vm_compute. discriminate.
Qed.
Print Assumptions C38_fine_steps_refuted.

(** meaning of the specification: the integral is additive, is [na] times the length outside of the series, and is the area of a trapezoid within one interval *)
Section SpecMeaning.
Variables (dx xs : Q) (vals : list Q) (na : Q).
Hypothesis DX : (0 < dx)%Q.

Lemma area_additive x1 x2 x3 j : (area dx xs vals x1 x2 j + area dx xs vals x2 x3 j == area dx xs vals x1 x3 j)%Q.
Proof. unfold area, line. cbv zeta. field. lra. Qed.

Lemma qsum_plus {A} (f g : A -> Q) l : (qsum (map (fun j => f j + g j) l) == qsum (map f l) + qsum (map g l))%Q.
Proof. induction l as [|x l IH]; cbn; [ring|]. unfold qsum in IH. rewrite IH. ring. Qed.
Lemma qsum_ext {A} (f g : A -> Q) l : (forall j, (f j == g j)%Q) -> (qsum (map f l) == qsum (map g l))%Q.
Proof. intros E. induction l as [|x l IH]; cbn; [ring|]. unfold qsum in IH. rewrite IH, E. ring. Qed.

Lemma integral_additive x1 x2 x3 : (integral dx xs vals na x1 x2 + integral dx xs vals na x2 x3 == integral dx xs vals na x1 x3)%Q.
Proof.
  unfold integral. rewrite <- (qsum_ext (fun j => area dx xs vals x1 x2 j + area dx xs vals x2 x3 j)%Q (area dx xs vals x1 x3)) by (intros; apply area_additive).
  rewrite qsum_plus. ring.
Qed.
End SpecMeaning.

(** C38: integrating step by step yields the integral over the whole simulated time, for every sequence of steps which are at least as long as the sampling distance. *)
Fixpoint steps_sum (tol dx xs : Q) (vals : list Q) (na t : Q) (dts : list Q) (acc : Q) : res Q :=
  match dts with
  | [] => Ok acc
  | dt :: r => s <- integrate tol dx xs vals t (t + dt) na;; steps_sum tol dx xs vals na (t + dt) r (acc + s)%Q
  end.
Fixpoint steps_clear (tol dx xs : Q) (vals : list Q) (t : Q) (dts : list Q) : Prop :=
  match dts with [] => True | dt :: r => clearEnds tol dx xs vals t (t + dt) /\ steps_clear tol dx xs vals (t + dt) r end.

Theorem C38_all_steps tol dx xs vals na t dts : (0 < tol)%Q -> (0 < dx)%Q -> vals <> [] -> Forall (fun dt => dx <= dt)%Q dts ->
  steps_clear tol dx xs vals t dts ->
  exists s, steps_sum tol dx xs vals na t dts 0 = Ok s /\ (s == integral dx xs vals na t (t + qsum dts))%Q.
Proof.
  intros T D NE. enough (G : forall dts t acc, Forall (fun dt => dx <= dt)%Q dts -> steps_clear tol dx xs vals t dts ->
    exists s, steps_sum tol dx xs vals na t dts acc = Ok s /\ (s == acc + integral dx xs vals na t (t + qsum dts))%Q).
  { intros F C. destruct (G dts t 0%Q F C) as (s & E & H). exists s. split; auto. rewrite H. ring. }
  assert (PR : forall a b c, (b == c)%Q -> (integral dx xs vals na a b == integral dx xs vals na a c)%Q).
  { intros a b c E. unfold integral. assert (X : (qsum (map (area dx xs vals a b) (seq 0 (length vals - 1))) == qsum (map (area dx xs vals a c) (seq 0 (length vals - 1))))%Q).
    { apply qsum_ext. intros j. unfold area, line, clamp. cbv zeta. rewrite E. reflexivity. }
    rewrite X, E. reflexivity. }
  induction dts0 as [|dt r IH]; intros t0 acc F C.
  - exists acc. split; [reflexivity|]. cbn. rewrite (PR t0 (t0 + 0)%Q t0) by ring. assert (X := integral_additive dx xs vals na D t0 t0 t0). lra.
  - inversion F as [|? ? F1 F2]; subst. destruct C as [C1 C2].
    destruct (C38_coarse_steps tol dx xs vals na t0 (t0 + dt) T D NE ltac:(lra) C1) as (s & E & H).
    destruct (IH (t0 + dt)%Q (acc + s)%Q F2 C2) as (s' & E' & H'). exists s'. split.
    + cbn [steps_sum]. rewrite E. exact E'.
    + rewrite H', H. rewrite (PR t0 (t0 + qsum (dt :: r))%Q (t0 + dt + qsum r)%Q) by (unfold qsum; cbn; ring).
      rewrite <- (integral_additive dx xs vals na D t0 (t0 + dt) (t0 + dt + qsum r)). ring.
Qed.
Print Assumptions C38_all_steps.

Example C38_all_steps_ex : steps_clear (1#1000) (1#2) 1 [0;3;4;1]%Q 0 [2#3;1#2;7#8]%Q /\
  exists s, steps_sum (1#1000) (1#2) 1 [0;3;4;1]%Q 0 0 [2#3;1#2;7#8]%Q 0 = Ok s /\ (0 < s)%Q.
Proof.
  split.
  - cbn. unfold clearEnds, end_, pt_, qn. cbn.
    repeat split; first [left; apply Qle_bool_iff; reflexivity | right; apply Qle_bool_iff; reflexivity].
  - eexists. split; [reflexivity|]. apply qlt_true. reflexivity.
Qed.
