(** The advection kernels over the real numbers: derivatives along the characteristics, Taylor's theorem for polynomials, fluxes. *)
From Coq Require Import List ZArith Reals Lra Lia Bool Factorial.
From Verif Require Import BasisSpec BasisInt BasisOrth Basis BasisModes BasisSpan BasisDer EdgePreM EdgePreP.
From Verif Require Import Util MeshConn Ader AderSpec AderV Props_Ader Props_AderR Props_EdgePre AdvKSpec.
Import ListNotations.
Local Open Scope R_scope.

(** *** Derivatives along a line *)
Section Line.
Variables (el : refEl) (u v w : R).
Local Notation V di := (nth di [u; v; w] 0).
Lemma aff_line p s t : derivable_pt_lim (fun t => p + t * s) t s.
Proof.
  apply (dlim_ext (fun t => p + s * t)); [intros; ring|]. enough (D : derivable_pt_lim (fun t => p + s * t) t (0 + s * 1)) by (now rewrite Rplus_0_l, Rmult_1_r in D).
  apply (derivable_pt_lim_plus (fun _ => p) (fun t => s * t)); [apply derivable_pt_lim_const|apply (derivable_pt_lim_scal id), derivable_pt_lim_id].
Qed.
Lemma wc_line c a b d t : (c < 3)%nat -> derivable_pt_lim (fun t => wc el c (a + t * u) (b + t * v) (d + t * w)) t (rsum (dim el) (fun di => V di * slope el di c)).
Proof.
  intros Hc. apply (dlim_ext (fun t => wc el c a b d + t * rsum (dim el) (fun di => V di * slope el di c))).
  - intros x. destruct el; cbn [dim rsum]; unfold slope; destruct c as [|[|[|c]]]; try lia; cbn; ring.
  - apply aff_line.
Qed.
Lemma mon_line e a b d t : derivable_pt_lim (fun t => wmon el e (a + t * u) (b + t * v) (d + t * w)) t (rsum (dim el) (fun di => V di * dmon el di e (a + t * u) (b + t * v) (d + t * w))).
Proof.
  destruct e as ((i & j) & k).
  apply (dlim_ext (fun t => wc el 0 (a + t * u) (b + t * v) (d + t * w) ^ i * wc el 1 (a + t * u) (b + t * v) (d + t * w) ^ j * wc el 2 (a + t * u) (b + t * v) (d + t * w) ^ k)); [intros; now rewrite wmon_wc|].
  pose proof (dprod _ _ _ t _ _ _ i j k (wc_line 0 a b d t ltac:(lia)) (wc_line 1 a b d t ltac:(lia)) (wc_line 2 a b d t ltac:(lia))) as D. cbv beta in D.
  match type of D with derivable_pt_lim _ _ ?x => match goal with |- derivable_pt_lim _ _ ?y => replace y with x; [exact D|] end end.
  unfold dmon. cbn [rsum cmp dec]. rewrite (rsum_ext (dim el) (fun di => V di * (0 + slope el di 0 * INR i * wmon el (pred i, j, k) (a + t * u) (b + t * v) (d + t * w) + slope el di 1 * INR j * wmon el (i, pred j, k) (a + t * u) (b + t * v) (d + t * w) + slope el di 2 * INR k * wmon el (i, j, pred k) (a + t * u) (b + t * v) (d + t * w)))
    (fun di => V di * slope el di 0 * (INR i * wmon el (pred i, j, k) (a + t * u) (b + t * v) (d + t * w)) + V di * slope el di 1 * (INR j * wmon el (i, pred j, k) (a + t * u) (b + t * v) (d + t * w)) + V di * slope el di 2 * (INR k * wmon el (i, j, pred k) (a + t * u) (b + t * v) (d + t * w)))) by (intros; ring).
  rewrite !rsum_add, !rsum_mulr, !wmon_wc. ring.
Qed.
Lemma wp_line ok f : wpoly el ok f -> exists G : nat -> R -> R -> R -> R, (forall di, (di < dim el)%nat -> isder di f (G di)) /\
  forall a b d t, derivable_pt_lim (fun t => f (a + t * u) (b + t * v) (d + t * w)) t (rsum (dim el) (fun di => V di * G di (a + t * u) (b + t * v) (d + t * w))).
Proof.
  induction 1 as [|e c He|f g Hf (Gf & F1 & F2) Hg (Gg & G1 & G2)|f g E Hf (Gf & F1 & F2)].
  - exists (fun _ _ _ _ => 0). split; [intros di _ x y z; apply partial_const|]. intros. rewrite (rsum_ext _ _ (fun _ => 0 * 0)) by (intros; ring). rewrite rsum_mul, Rmult_0_l. apply derivable_pt_lim_const.
  - exists (fun di x y z => c * dmon el di e x y z). split; [intros di Hd x y z; apply partial_scal; now apply mon_partial|]. intros.
    rewrite (rsum_ext _ _ (fun di => c * (V di * dmon el di e (a + t * u) (b + t * v) (d + t * w)))) by (intros; ring). rewrite rsum_mul. apply (derivable_pt_lim_scal (fun t => wmon el e (a + t * u) (b + t * v) (d + t * w))). apply mon_line.
  - exists (fun di x y z => Gf di x y z + Gg di x y z). split; [intros di Hd x y z; apply partial_add; [now apply F1|now apply G1]|]. intros.
    rewrite (rsum_ext _ _ (fun di => V di * Gf di (a + t * u) (b + t * v) (d + t * w) + V di * Gg di (a + t * u) (b + t * v) (d + t * w))) by (intros; ring). rewrite rsum_add.
    apply (derivable_pt_lim_plus (fun t => f (a + t * u) (b + t * v) (d + t * w)) (fun t => g (a + t * u) (b + t * v) (d + t * w))); auto.
  - exists Gf. split; [intros di Hd x y z; apply (partial_ext f g); [exact E|now apply F1]|]. intros. apply (dlim_ext (fun t => f (a + t * u) (b + t * v) (d + t * w))); [intros; apply E|apply F2].
Qed.
End Line.

(** *** Taylor's theorem for functions whose n-th derivative vanishes *)
Lemma zero_der f : (forall t, derivable_pt_lim f t 0) -> forall t, f t = f 0.
Proof.
  intros H t. assert (pr : derivable f) by (intros x; exists 0; apply H). apply (null_derivative_1 f pr). intros x. apply derive_pt_eq_0. apply H.
Qed.
Lemma D_powS c d t : derivable_pt_lim (fun t => t ^ d / INR (fact d) * c) t (match d with O => 0 | S k => t ^ k / INR (fact k) * c end).
Proof.
  destruct d as [|k]; [|apply D_power]. apply (dlim_ext (fun _ => c)); [intros; cbn; field|apply derivable_pt_lim_const].
Qed.
Lemma rsum_S n f : rsum (S n) f = f 0%nat + rsum n (fun d => f (S d)).
Proof. rewrite <- !sum_rsum. apply sum_first. Qed.
Lemma taylor n (h : nat -> R -> R) : (forall k t, (k < n)%nat -> derivable_pt_lim (h k) t (h (S k) t)) -> (forall t, h n t = 0) -> forall t, h 0%nat t = rsum n (fun d => t ^ d / INR (fact d) * h d 0).
Proof.
  revert h. induction n as [|n IH]; intros h D Z t; [now apply Z|].
  pose proof (IH (fun k => h (S k)) (fun k t Hk => D (S k) t ltac:(lia)) Z) as I1. cbv beta in I1.
  set (P := fun t => rsum (S n) (fun d => t ^ d / INR (fact d) * h d 0)).
  assert (DP : forall x, derivable_pt_lim P x (h 1%nat x)).
  { intros x. rewrite I1. unfold P. apply (dlim_ext (fun t => h 0%nat 0 + rsum n (fun d => t ^ S d / INR (fact (S d)) * h (S d) 0))).
    - intros y. rewrite rsum_S. cbn [Rpow_def.pow fact INR]. field.
    - replace (rsum n (fun d => x ^ d / INR (fact d) * h (S d) 0)) with (0 + rsum n (fun d => x ^ d / INR (fact d) * h (S d) 0)) by ring.
      apply (derivable_pt_lim_plus (fun _ => h 0%nat 0)); [apply derivable_pt_lim_const|]. rewrite <- sum_rsum.
      apply (dlim_ext (fun t => sum algR n (fun d => t ^ S d / INR (fact (S d)) * h (S d) 0))); [intros; apply sum_rsum|].
      apply (D_sum n (fun d t => t ^ S d / INR (fact (S d)) * h (S d) 0)). intros d Hd. apply D_power. }
  assert (E : forall x, h 0%nat x - P x = h 0%nat 0 - P 0).
  { apply (zero_der (fun x => h 0%nat x - P x)). intros x. replace 0 with (h 1%nat x - h 1%nat x) by ring. apply (derivable_pt_lim_minus (h 0%nat) P); [apply D; lia|apply DP]. }
  assert (P0 : P 0 = h 0%nat 0).
  { unfold P. rewrite rsum_S. rewrite (rsum_ext n _ (fun _ => 0 * 0)); [|intros d Hd; rewrite pow_i by lia; unfold Rdiv; ring]. rewrite rsum_mul. cbn [Rpow_def.pow fact INR]. field. }
  specialize (E t). fold (P t). lra.
Qed.
Lemma taylor_int n (h : nat -> R) t : derivable_pt_lim (fun t => rsum n (fun d => t ^ S d / INR (fact (S d)) * h d)) t (rsum n (fun d => t ^ d / INR (fact d) * h d)).
Proof.
  rewrite <- sum_rsum. apply (dlim_ext (fun t => sum algR n (fun d => t ^ S d / INR (fact (S d)) * h d))); [intros; apply sum_rsum|].
  apply (D_sum n (fun d t => t ^ S d / INR (fact (S d)) * h d)). intros d Hd. apply D_power.
Qed.

(** *** The scheme's operator *)
Section Kernels.
Variable cf : conf.
Local Notation el := (refOf (cEl cf)).
Local Notation n := (cSp cf).
Local Notation nMd := (nModes (cEl cf) (cSp cf)).
Local Notation nMdFa := (nModesFa (cEl cf) (cSp cf)).
Local Notation nFa := (nElFas (cEl cf)).
Local Notation nDi := (nDis (cEl cf)).
Local Notation sq y := (norm2 el (modeAt el n y)).

(** the quantity as a function on the reference element *)
Definition fieldS (q : nat -> R) (a b c : R) : R := rsum nMd (fun l => q l * bas el n l a b c).
Lemma fieldS_field q : fieldS q = field cf (fun _ => q) 0.
Proof. reflexivity. Qed.
Lemma field_wp q : wpoly el (okE el n) (fieldS q).
Proof.
  unfold fieldS. assert (L : (nMd <= nMd)%nat) by lia. revert L. generalize nMd at 1 3 as k. induction k as [|k IH]; intros L.
  - cbn [rsum]. apply wp_zero.
  - cbn [rsum]. apply (wp_add el _ (fun a b c => rsum k (fun l => q l * bas el n l a b c))); [apply IH; lia|]. apply wp_scal. apply bas_wp. rewrite <- refOf_md. lia.
Qed.
Lemma opS_field stT st fLN fT star q a b c : refMats cf stT st fLN fT -> exists g : nat -> R, (forall di, (di < nDi)%nat -> partial (fieldS q) di a b c (g di)) /\
  fieldS (opS algR cf (predK algR cf stT) star q) a b c = - rsum nDi (fun di => nth di star 0 * g di).
Proof.
  intros HR. destruct (refMats_stored _ _ _ _ _ HR) as (sT & sV & fL & fN & fTm & PM & S1 & _).
  exists (fun di => rsum nMd (fun l => q l * rsum nMd (fun k => sT di l k * bas el n k a b c))). split.
  - intros di Hd. rewrite refOf_dim in Hd. apply (partial_rsum nMd (fun l a b c => q l * bas el n l a b c)). intros l Hl. apply partial_scal. rewrite !refOf_md in *. now apply (C84_derivative el n sT sV fL fN fTm PM).
  - unfold fieldS, opS. cbn [aMul aZero algR].
    rewrite (rsum_ext nMd _ (fun y => rsum nDi (fun di => rsum nMd (fun l => - (nth di star 0 * (q l * (sT di l y * bas el n y a b c))))))).
    2:{ intros y Hy. rewrite sum_rsum, <- rsum_mulr. apply rsum_ext. intros di Hd. rewrite sum_rsum, <- rsum_mul, <- rsum_mulr. apply rsum_ext. intros l Hl. unfold predK. cbn [aOpp algR]. rewrite refOf_dim in Hd. destruct (S1 di Hd) as ((_ & E) & _). rewrite E by assumption. ring. }
    rewrite rsum_swap. replace (- rsum nDi (fun di => nth di star 0 * rsum nMd (fun l => q l * rsum nMd (fun k => sT di l k * bas el n k a b c))))
      with (-1 * rsum nDi (fun di => nth di star 0 * rsum nMd (fun l => q l * rsum nMd (fun k => sT di l k * bas el n k a b c)))) by ring.
    rewrite <- rsum_mul. apply rsum_ext. intros di Hd. rewrite rsum_swap, <- !rsum_mul. apply rsum_ext. intros l Hl. rewrite <- !rsum_mul. apply rsum_ext. intros k Hk. ring.
Qed.

(** along the characteristic, the derivative is the operator *)
Definition at_t (f : R -> R -> R -> R) (star : list R) (a b c t : R) : R := f (a - t * nth 0 star 0) (b - t * nth 1 star 0) (c - t * nth 2 star 0).
Lemma char_lim stT st fLN fT star q a b c t : refMats cf stT st fLN fT -> length star = nDi ->
  derivable_pt_lim (at_t (fieldS q) star a b c) t (at_t (fieldS (opS algR cf (predK algR cf stT) star q)) star a b c t).
Proof.
  intros HR Ls. destruct (wp_line el (- nth 0 star 0) (- nth 1 star 0) (- nth 2 star 0) _ _ (field_wp q)) as (G & G1 & G2). unfold at_t.
  apply (dlim_ext (fun t => fieldS q (a + t * - nth 0 star 0) (b + t * - nth 1 star 0) (c + t * - nth 2 star 0))); [intros; f_equal; ring|].
  destruct (opS_field stT st fLN fT star q (a - t * nth 0 star 0) (b - t * nth 1 star 0) (c - t * nth 2 star 0) HR) as (g & P & E). rewrite E. clear E.
  match goal with |- derivable_pt_lim _ _ ?y => replace y with (rsum (dim el) (fun di => nth di [- nth 0 star 0; - nth 1 star 0; - nth 2 star 0] 0 * G di (a + t * - nth 0 star 0) (b + t * - nth 1 star 0) (c + t * - nth 2 star 0))); [apply G2|] end.
  replace (- rsum nDi (fun di => nth di star 0 * g di)) with (-1 * rsum nDi (fun di => nth di star 0 * g di)) by ring. rewrite <- rsum_mul, refOf_dim. apply rsum_ext. intros di Hd.
  replace (G di (a + t * - nth 0 star 0) (b + t * - nth 1 star 0) (c + t * - nth 2 star 0)) with (g di).
  2:{ apply (partial_unique (fieldS q) di (a - t * nth 0 star 0) (b - t * nth 1 star 0) (c - t * nth 2 star 0)); [apply P; now rewrite refOf_dim|].
      replace (a - t * nth 0 star 0) with (a + t * - nth 0 star 0) by ring. replace (b - t * nth 1 star 0) with (b + t * - nth 1 star 0) by ring. replace (c - t * nth 2 star 0) with (c + t * - nth 2 star 0) by ring. now apply G1. }
  assert (D3 : (dim el <= 3)%nat) by (destruct (cEl cf); cbn; lia). destruct di as [|[|[|di]]]; try lia; cbn [nth]; ring.
Qed.
(** the derivatives of the highest degree vanish *)
Lemma powS_low stT st fLN fT star q d y : refMats cf stT st fLN fT -> (cTi cf <= S n)%nat -> (d <= n)%nat -> (nModesCk (cEl cf) n d <= y < nMd)%nat -> powS algR cf (predK algR cf stT) star d q y = 0.
Proof.
  intros HR HT. destruct (C84_lowers cf _ _ _ _ HR HT) as (Low & _). revert y. induction d as [|d IH]; intros y Hd Hy.
  - exfalso. assert (nModesCk (cEl cf) n 0 = nMd) by (unfold nModesCk; destruct (cEl cf); rewrite ?Nat.sub_0_r; reflexivity). lia.
  - cbn [powS]. unfold opS. apply (sum_0 algR). intros di Hdi. replace (sum algR nMd _) with 0; [cbn; ring|]. symmetry. apply (sum_0 algR). intros l Hl.
    destruct (Nat.lt_ge_cases l (nModesCk (cEl cf) n d)) as [C|C].
    + rewrite (Low (S d) di l y) by (replace (S d - 1)%nat with d by lia; auto; lia). cbn. ring.
    + rewrite IH by lia. cbn. ring.
Qed.
Lemma powS_end stT st fLN fT star q a b c : refMats cf stT st fLN fT -> (cEl cf = TRIA3 \/ cEl cf = TET4) -> (cTi cf <= S n)%nat -> fieldS (powS algR cf (predK algR cf stT) star n q) a b c = 0.
Proof.
  intros HR El HT. unfold fieldS. rewrite (rsum_ext nMd _ (fun _ => 0 * 0)); [rewrite rsum_mul; ring|]. intros l Hl.
  rewrite (powS_low stT st fLN fT star q n l HR HT ltac:(lia)); [ring|]. assert (E : nModesCk (cEl cf) n n = 0%nat) by (destruct El as [->| ->]; cbn; now rewrite Nat.sub_diag). lia.
Qed.
(** the surface terms *)
Lemma surfS_surf f F Ft t y : surfS algR cf f F Ft t y = surf algR cf [f] F Ft (fun _ => t) 0 y.
Proof.
  unfold surfS, surf. apply (sum_ext algR). intros m Hm. f_equal. assert (P : exists k, nQtsE (cEl cf) = S k) by (destruct (cEl cf); cbn; eauto). destruct P as (k & ->).
  rewrite !sum_rsum, rsum_S. rewrite (rsum_ext k _ (fun _ => 0 * 0)).
  - rewrite rsum_mul. unfold ent. cbn [Nat.mul Nat.add nth aMul algR]. unfold faceS, faceInt. cbn [aMul algR]. ring.
  - intros j Hj. unfold ent. cbn [Nat.mul Nat.add]. destruct j; cbn [nth aMul aZero algR]; ring.
Qed.
Lemma flux1 f (tr : R -> R -> R -> R) a b c : fluxOf cf [f] (fun _ => tr) 0 a b c = f * tr a b c.
Proof.
  unfold fluxOf. assert (P : exists k, nQtsE (cEl cf) = S k) by (destruct (cEl cf); cbn; eauto). destruct P as (k & ->). rewrite rsum_S. rewrite (rsum_ext k _ (fun _ => 0 * 0)).
  - rewrite rsum_mul. unfold ent. cbn [Nat.mul Nat.add nth]. ring.
  - intros j Hj. unfold ent. cbn [Nat.mul Nat.add]. destruct j; cbn [nth aZero algR]; ring.
Qed.
End Kernels.
