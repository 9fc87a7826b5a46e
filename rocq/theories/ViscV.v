(** Proofs about the attenuation set-up. *)
From Coq Require Import List Arith Bool Reals Lra Lia.
From Verif Require Import Util FakeMats ElSpec ViscSpec Visc.
Import ListNotations.
Open Scope R_scope.

(** *** Sums *)
Lemma sum_S n f : sum (S n) f = sum n f + f n.
Proof. unfold sum. rewrite seq_S, fold_left_app. reflexivity. Qed.
Lemma sum_0 f : sum 0 f = 0. Proof. reflexivity. Qed.
Lemma sum_ext n f g : (forall i, (i < n)%nat -> f i = g i) -> sum n f = sum n g.
Proof. induction n; intros H; [reflexivity|]. rewrite !sum_S, IHn, H by auto with arith. reflexivity. Qed.
Lemma sum_lin n a b f g : sum n (fun i => a * f i + b * g i) = a * sum n f + b * sum n g.
Proof. induction n; [rewrite !sum_0; ring|]. rewrite !sum_S, IHn. ring. Qed.
Lemma sum_scal n a f : sum n (fun i => a * f i) = a * sum n f.
Proof. induction n; [rewrite !sum_0; ring|]. rewrite !sum_S, IHn. ring. Qed.
Lemma sum_add n f g : sum n (fun i => f i + g i) = sum n f + sum n g.
Proof. induction n; [rewrite !sum_0; ring|]. rewrite !sum_S, IHn. ring. Qed.
Lemma sum_opp n f : sum n (fun i => - f i) = - sum n f.
Proof. induction n; [rewrite !sum_0; ring|]. rewrite !sum_S, IHn. ring. Qed.
Lemma sum_zero n f : (forall i, (i < n)%nat -> f i = 0) -> sum n f = 0.
Proof. induction n; intros H; [reflexivity|]. rewrite sum_S, IHn, H by auto with arith. ring. Qed.
Lemma sumSq_nonneg n f : 0 <= sumSq n f.
Proof. unfold sumSq. induction n; [rewrite sum_0; lra|]. rewrite sum_S. pose proof (Rle_0_sqr (f n)). unfold Rsqr in *. lra. Qed.
Lemma sumSq_ext n f g : (forall i, (i < n)%nat -> f i = g i) -> sumSq n f = sumSq n g.
Proof. intros H. apply sum_ext. intros i Hi. now rewrite H. Qed.
Lemma sumSq_zero n f : sumSq n f <= 0 -> forall i, (i < n)%nat -> f i = 0.
Proof.
  induction n; intros H i Hi; [lia|]. unfold sumSq in *. rewrite sum_S in H. pose proof (sumSq_nonneg n f) as P. unfold sumSq in P. pose proof (Rle_0_sqr (f n)) as Q. unfold Rsqr in Q.
  destruct (Nat.eq_dec i n) as [->|]; [|apply IHn; [lra|lia]]. apply Rsqr_0_uniq. unfold Rsqr. lra.
Qed.
Lemma sumSq_scal n c f : sumSq n (fun i => c * f i) = c * c * sumSq n f.
Proof. unfold sumSq. rewrite <- sum_scal. apply sum_ext. intros. ring. Qed.

(** *** Frequencies *)
Section Freq.
Variables (n : nat) (fc fr : R).
Hypotheses (Hn : (1 <= n)%nat) (Hc : 0 < fc) (Hr : 0 < fr).
Local Notation fs := (frequencies n fc fr).
Local Notation f0 := (2 * PI * fc / sqrt fr).

Lemma f0_pos : 0 < f0.
Proof. pose proof PI_RGT_0. apply Rdiv_lt_0_compat; [nra|now apply sqrt_lt_R0]. Qed.
Lemma freqs_length : length fs = (2 * n - 1)%nat.
Proof. unfold frequencies. cbn [length]. rewrite map_length, seq_length. lia. Qed.
Lemma freqs_nth k : (k < 2 * n - 1)%nat -> nth k fs 0 = exp (ln f0 + INR k * ln fr / INR (2 * (n - 1))).
Proof.
  intros Hk. unfold frequencies. destruct k as [|k].
  - cbn [nth INR]. replace (ln f0 + 0 * ln fr / INR (2 * (n - 1))) with (ln f0) by (unfold Rdiv; ring). rewrite exp_ln; [reflexivity|apply f0_pos].
  - cbn [nth]. rewrite (nth_indep _ 0 (exp (ln f0 + INR 0 * ln fr / INR (2 * (n - 1))))) by (rewrite map_length, seq_length; lia).
    rewrite (map_nth (fun k => exp (ln f0 + INR k * ln fr / INR (2 * (n - 1)))) _ 0%nat). rewrite seq_nth by lia. reflexivity.
Qed.
Lemma freqs_pos k : (k < 2 * n - 1)%nat -> 0 < nth k fs 0.
Proof. intros Hk. rewrite freqs_nth by exact Hk. apply exp_pos. Qed.
End Freq.

(** *** Response of the mechanisms *)
Lemma remembers_eq n w wl z l : remembers n w wl z -> (l < n)%nat -> 0 < wl l ->
  z l = (wl l * wl l / (wl l * wl l + w * w), - (wl l * w) / (wl l * wl l + w * w)).
Proof.
  intros H Hl P. specialize (H l Hl). destruct (z l) as (a, b). unfold cmul, cadd, creal in H. cbn [fst snd] in H. injection H as H1 H2.
  assert (D : wl l * wl l + w * w <> 0) by (pose proof (Rle_0_sqr w); unfold Rsqr in *; nra).
  assert (H1' : w * b = wl l * (a - 1)) by lra. assert (H2' : w * a = - (wl l * b)) by lra.
  assert (A : a * (wl l * wl l + w * w) = wl l * wl l).
  { transitivity (wl l * wl l * a + w * (w * a)); [ring|]. rewrite H2'. transitivity (wl l * wl l * a - wl l * (w * b)); [ring|]. rewrite H1'. ring. }
  assert (B : b * (wl l * wl l + w * w) = - (wl l * w)).
  { transitivity (wl l * (wl l * b) + w * (w * b)); [ring|]. rewrite H1'. transitivity (wl l * (wl l * b) + wl l * (w * a) - wl l * w); [ring|]. rewrite H2'. ring. }
  f_equal; apply (Rmult_eq_reg_r (wl l * wl l + w * w)); try exact D; [rewrite A|rewrite B]; field; exact D.
Qed.
Lemma remembers_ex n w wl : (forall l, (l < n)%nat -> 0 < wl l) ->
  remembers n w wl (fun l => (wl l * wl l / (wl l * wl l + w * w), - (wl l * w) / (wl l * wl l + w * w))).
Proof.
  intros P l Hl. specialize (P l Hl). assert (D : wl l * wl l + w * w <> 0) by (pose proof (Rle_0_sqr w); unfold Rsqr in *; nra).
  unfold cmul, cadd, creal. cbn [fst snd]. f_equal; field; exact D.
Qed.

(** relative modulus at the angular frequency w *)
Lemma relMod_eq n y w wl z : remembers n w wl z -> (forall l, (l < n)%nat -> 0 < wl l) ->
  relMod n y z = (1 - sum n (fun l => y l * (wl l * wl l / (wl l * wl l + w * w))), sum n (fun l => y l * (wl l * w / (wl l * wl l + w * w)))).
Proof.
  intros H P. unfold relMod, cadd, csum, creal, cmul. cbn [fst snd]. f_equal.
  - unfold Rminus. f_equal. rewrite <- sum_opp. apply sum_ext. intros l Hl. rewrite (remembers_eq _ _ _ _ l H Hl (P l Hl)). cbn [fst snd]. unfold Rdiv. ring.
  - rewrite Rplus_0_l. apply sum_ext. intros l Hl. rewrite (remembers_eq _ _ _ _ l H Hl (P l Hl)). cbn [fst snd]. unfold Rdiv. ring.
Qed.

(** *** Elastic parameters *)
Lemma theta_fold fRef fs cK cM n : (forall l, (l < n)%nat -> 0 < nth (l * 2) fs 0) ->
  fold_left (fun t me => let '(t10, t11, t20, t21) := t in
      let freqRat := fRef / nth (me * 2) fs 0 in
      let sca := 1 / (1 + freqRat * freqRat) in
      (t10 - nth me cK 0 * sca, t11 - nth me cM 0 * sca, t20 + nth me cK 0 * freqRat * sca, t21 + nth me cM 0 * freqRat * sca))
      (seq 0 n) (1, 1, 0, 0) =
  (let wl := fun l => nth (l * 2) fs 0 in
   let a c := sum n (fun l => nth l c 0 * (wl l * wl l / (wl l * wl l + fRef * fRef))) in
   let b c := sum n (fun l => nth l c 0 * (wl l * fRef / (wl l * wl l + fRef * fRef))) in
   (1 - a cK, 1 - a cM, b cK, b cM)).
Proof.
  intros P. cbv zeta. induction n; [cbn; rewrite Rminus_0_r; reflexivity|]. rewrite seq_S, fold_left_app, IHn by auto with arith. cbn [fold_left plus]. rewrite !sum_S.
  specialize (P n ltac:(lia)). set (u := nth (n * 2) fs 0) in *.
  assert (D : u * u + fRef * fRef <> 0) by (pose proof (Rle_0_sqr fRef); unfold Rsqr in *; nra).
  assert (D' : 1 + fRef / u * (fRef / u) <> 0) by (pose proof (Rle_0_sqr (fRef / u)); unfold Rsqr in *; lra).
  assert (E1 : 1 / (1 + fRef / u * (fRef / u)) = u * u / (u * u + fRef * fRef)) by (field; repeat split; try lra; exact D).
  rewrite E1. assert (E2 : forall c, c * (fRef / u) * (u * u / (u * u + fRef * fRef)) = c * (u * fRef / (u * u + fRef * fRef))) by (intros c; field; split; [exact D|lra]).
  rewrite !E2. repeat (apply f_equal2; [|ring]). ring.
Qed.

(** |theta| *)
Definition normC (a : Cx) : R := sqrt (fst a * fst a + snd a * snd a).
Lemma normC_sq a : normC a * normC a = fst a * fst a + snd a * snd a.
Proof. apply sqrt_sqrt. pose proof (Rle_0_sqr (fst a)). pose proof (Rle_0_sqr (snd a)). unfold Rsqr in *. lra. Qed.
Lemma normC_pos a : 0 <= normC a. Proof. apply sqrt_pos. Qed.
Lemma normC_ge a : - fst a <= normC a.
Proof. pose proof (normC_pos a). pose proof (normC_sq a). destruct (Rle_dec (- fst a) (normC a)); [assumption|]. pose proof (Rle_0_sqr (snd a)). unfold Rsqr in *. nra. Qed.

Lemma quo_ok a b x : quo a b = Ok x -> b <> 0 /\ x = a / b.
Proof. unfold quo. destruct (Req_EM_T b 0); [discriminate|]. intros [= <-]. auto. Qed.

Section Src.
Variable solve : nat -> nat -> list R -> list R -> list R.
Variables (d n : nat) (fc fr qp qs lamP muP : R).
Hypotheses (Hn : (1 <= n)%nat) (Hc : 0 < fc) (Hr : 0 < fr).
Local Notation fs := (frequencies n fc fr).
Local Notation wl := (fun l => nth (l * 2) fs 0).
Local Notation coeffs q := (solve (2 * n - 1) n (fitMat n (1 / q) fs) (fitRhs n (1 / q))).

Lemma wl_pos l : (l < n)%nat -> 0 < nth (l * 2) fs 0.
Proof. intros Hl. apply freqs_pos; auto. lia. Qed.

(** the set-up in terms of the relative moduli at the reference frequency *)
Definition refMod (y : list R) : Cx :=
  let w := 2 * PI * fc in
  (1 - sum n (fun l => nth l y 0 * (wl l * wl l / (wl l * wl l + w * w))), sum n (fun l => nth l y 0 * (wl l * w / (wl l * wl l + w * w)))).

Lemma theta_ref cK cM :
  fold_left (fun t me => let '(t10, t11, t20, t21) := t in
      let freqRat := 2 * PI * fc / nth (me * 2) fs 0 in
      let sca := 1 / (1 + freqRat * freqRat) in
      (t10 - nth me cK 0 * sca, t11 - nth me cM 0 * sca, t20 + nth me cK 0 * freqRat * sca, t21 + nth me cM 0 * freqRat * sca))
      (seq 0 n) (1, 1, 0, 0) = (fst (refMod cK), fst (refMod cM), snd (refMod cK), snd (refMod cM)).
Proof. rewrite theta_fold by (intros l Hl; now apply wl_pos). reflexivity. Qed.

Lemma srcMats_inv lamE muE s : srcMats solve d n fc fr qp qs lamP muP = Ok (lamE, muE, s) ->
  let yP := coeffs qp in let yS := coeffs qs in
  qp <> 0 /\ qs <> 0 /\ lamE <> 0 /\ normC (refMod yP) <> 0 /\ normC (refMod yS) <> 0 /\
  lamE + 2 * muE = (lamP + 2 * muP) * ((normC (refMod yP) + fst (refMod yP)) / (2 * (normC (refMod yP) * normC (refMod yP)))) /\
  muE = muP * ((normC (refMod yS) + fst (refMod yS)) / (2 * (normC (refMod yS) * normC (refMod yS)))) /\
  s = map (fun l => srcDense 0 d (- (lamE + 2 * muE) * nth l yP 0) (- (2 * muE) * nth l yS 0) (- (lamE + 2 * muE) * nth l yP 0 + 2 * muE * nth l yS 0)) (seq 0 n).
Proof.
  unfold srcMats, anelasticCoeffLame, anelasticCoeffPs. replace (n =? 0)%nat with false by (symmetry; apply Nat.eqb_neq; lia). replace (0 <? n)%nat with true by (symmetry; apply Nat.ltb_lt; lia).
  cbn [check bind]. destruct (quo 1 qp) as [qi|] eqn:Q1; [|discriminate]. destruct (quo_ok _ _ _ Q1) as (Q1a & ->). cbn [bind]. destruct (quo 1 qs) as [qi|] eqn:Q2; [|discriminate]. destruct (quo_ok _ _ _ Q2) as (Q2a & ->).
  cbn [bind]. unfold elasticLame. rewrite theta_ref. cbv zeta.
  set (yP := coeffs qp). set (yS := coeffs qs). fold (normC (refMod yS)). fold (normC (refMod yP)).
  match goal with |- context [quo ?a ?b] => destruct (quo a b) as [mE|] eqn:Q3; [|discriminate] end. destruct (quo_ok _ _ _ Q3) as (Q3a & E3). cbn [bind].
  match goal with |- context [quo ?a ?b] => destruct (quo a b) as [sc|] eqn:Q4; [|discriminate] end. destruct (quo_ok _ _ _ Q4) as (Q4a & E4). cbn [bind].
  match goal with |- context [quo ?a ?b] => destruct (quo a b) as [sca|] eqn:Q5; [|discriminate] end. destruct (quo_ok _ _ _ Q5) as (Q5a & E5). cbn [bind].
  intros X. injection X as <- <- <-. assert (N1 : normC (refMod yS) <> 0) by (intros Z; apply Q3a; rewrite Z; ring).
  assert (N2 : normC (refMod yP) <> 0) by (intros Z; apply Q4a; rewrite Z; ring).
  repeat (split; [assumption|]).
  split; [rewrite E4; field; exact N2|]. split; [rewrite E3; field; exact N1|].
  apply map_ext_in. intros l Hl. apply in_seq in Hl.
  rewrite (nth_indep _ 0 ((1 + sca) * nth 0 yP 0 - sca * nth 0 yS 0)) by (rewrite map_length, seq_length; lia).
  rewrite (map_nth (fun me => (1 + sca) * nth me yP 0 - sca * nth me yS 0) _ 0%nat), seq_nth by lia. cbn [plus]. rewrite E5.
  f_equal; field; exact Q5a.
Qed.
End Src.

(** *** Moduli of the source matrices *)
Lemma nth_srcs {X} (f : nat -> list X) n l : (l < n)%nat -> nth l (map f (seq 0 n)) [] = f l.
Proof. intros H. rewrite (nth_indep _ [] (f 0%nat)) by (rewrite map_length, seq_length; lia). rewrite (map_nth f _ 0%nat), seq_nth by lia. reflexivity. Qed.

Lemma csum_ext n f g : (forall l, (l < n)%nat -> f l = g l) -> csum n f = csum n g.
Proof. intros H. unfold csum. f_equal; apply sum_ext; intros l Hl; now rewrite H. Qed.
Lemma modulus_rel n U y z : cadd (creal U) (csum n (fun l => cmul (creal (- U * y l)) (z l))) = cmul (creal U) (relMod n y z).
Proof.
  unfold relMod, cadd, csum, cmul, creal. cbn [fst snd]. apply f_equal2.
  - transitivity (U + U * sum n (fun l => - y l * fst (z l) - 0 * snd (z l))); [f_equal; rewrite <- sum_scal; apply sum_ext; intros; ring|ring].
  - transitivity (U * sum n (fun l => - y l * snd (z l) + 0 * fst (z l))); [rewrite <- sum_scal, Rplus_0_l; apply sum_ext; intros; ring|ring].
Qed.
Lemma modP_rel d n rh lamE muE yP yS z : d = 2%nat \/ d = 3%nat ->
  let s := map (fun l => srcDense 0 d (- (lamE + 2 * muE) * nth l yP 0) (- (2 * muE) * nth l yS 0) (- (lamE + 2 * muE) * nth l yP 0 + 2 * muE * nth l yS 0)) (seq 0 n) in
  modP n {| rho := rh; lam := lamE; mu := muE |} (fun l => nth l s []) z = cmul (creal (lamE + 2 * muE)) (relMod n (fun l => nth l yP 0) z).
Proof.
  intros Hd s. unfold modP. cbn [lam mu]. rewrite <- modulus_rel. f_equal. apply csum_ext. intros l Hl. unfold s. rewrite (nth_srcs _ n l Hl). destruct Hd as [-> | ->]; reflexivity.
Qed.
Lemma modS_rel d n rh lamE muE yP yS z : d = 2%nat \/ d = 3%nat ->
  let s := map (fun l => srcDense 0 d (- (lamE + 2 * muE) * nth l yP 0) (- (2 * muE) * nth l yS 0) (- (lamE + 2 * muE) * nth l yP 0 + 2 * muE * nth l yS 0)) (seq 0 n) in
  modS d n {| rho := rh; lam := lamE; mu := muE |} (fun l => nth l s []) z = cmul (creal muE) (relMod n (fun l => nth l yS 0) z).
Proof.
  intros Hd s. unfold modS. cbn [lam mu]. rewrite <- modulus_rel. f_equal. apply csum_ext. intros l Hl. unfold s. rewrite (nth_srcs _ n l Hl). f_equal. f_equal. destruct Hd as [-> | ->]; cbn; field.
Qed.

(** *** Phase velocity *)
Section Phase.
Variables (rh w c U : R) (th : Cx).
Hypotheses (Hrho : 0 < rh) (Hw : 0 < w) (Hc : 0 < c).
Local Notation r := (normC th).
Hypotheses (Hr : r <> 0) (HU : U = c * ((r + fst th) / (2 * (r * r)))).
Lemma r_pos : 0 < r. Proof. pose proof (normC_pos th). lra. Qed.
Lemma U_rel : U * (2 * (r * r)) = c * (r + fst th).
Proof. rewrite HU. field. exact Hr. Qed.
Lemma U_nonneg : 0 <= U.
Proof. rewrite HU. pose proof (normC_ge th). apply Rmult_le_pos; [lra|]. unfold Rdiv. apply Rmult_le_pos; [lra|]. left. apply Rinv_0_lt_compat. pose proof r_pos. nra. Qed.

Lemma phase k : waveNumber rh w (cmul (creal U) th) k -> 0 < fst k -> w / fst k = sqrt (c / rh).
Proof.
  destruct k as (kr, ki). unfold waveNumber, cmul, creal. cbn [fst snd]. intros H Hk. injection H as H1 H2.
  pose proof (normC_sq th) as R2. pose proof r_pos as Rp. pose proof U_rel as UR. pose proof U_nonneg as Un.
  set (rr := normC th) in *. set (t1 := fst th) in *. set (t2 := snd th) in *. set (A := kr * kr - ki * ki) in *. set (B := kr * ki + ki * kr) in *. set (N := kr * kr + ki * ki).
  assert (NN : N * N = A * A + B * B) by (unfold N, A, B; ring).
  set (W := rh * (w * w)) in *. assert (Wp : 0 < W) by (unfold W; repeat apply Rmult_lt_0_compat; assumption).
  assert (E1 : U * (t1 * A - t2 * B) = W) by lra. assert (E2 : U * (t1 * B + t2 * A) = 0) by lra.
  assert (U0 : 0 < U). { destruct Un as [X|X]; [exact X|]. exfalso. rewrite <- X in E1. lra. }
  assert (F1 : U * (rr * rr) * A = W * t1). { rewrite R2. transitivity (t1 * (U * (t1 * A - t2 * B)) + t2 * (U * (t1 * B + t2 * A))); [ring|]. rewrite E1, E2. ring. }
  assert (F2 : U * rr * N = W).
  { assert (Nn : 0 <= N) by (unfold N; pose proof (Rle_0_sqr kr); pose proof (Rle_0_sqr ki); unfold Rsqr in *; lra).
    assert (S : (U * rr * N) * (U * rr * N) = W * W).
    { transitivity (U * U * (rr * rr) * (N * N)); [ring|]. rewrite NN, R2. transitivity ((U * (t1 * A - t2 * B)) * (U * (t1 * A - t2 * B)) + (U * (t1 * B + t2 * A)) * (U * (t1 * B + t2 * A))); [ring|]. rewrite E1, E2. ring. }
    assert (P : 0 <= U * rr * N) by (repeat apply Rmult_le_pos; lra). nra. }
  assert (G : c * (rr + t1) * (kr * kr) = W * (rr + t1)).
  { rewrite <- UR. transitivity (rr * (U * rr * N) + U * (rr * rr) * A); [unfold N, A; ring|]. rewrite F1, F2. ring. }
  assert (X : rr + t1 <> 0). { intros Z. rewrite Z in UR. assert (0 < U * (2 * (rr * rr))) by (apply Rmult_lt_0_compat; nra). lra. }
  assert (K : c * (kr * kr) = W). { apply (Rmult_eq_reg_r (rr + t1)); [|exact X]. lra. }
  symmetry. apply sqrt_lem_1; [apply Rlt_le, Rdiv_lt_0_compat; lra|apply Rlt_le, Rdiv_lt_0_compat; lra|].
  unfold W in K. apply (Rmult_eq_reg_r (rh * (kr * kr))); [|apply Rgt_not_eq; repeat apply Rmult_lt_0_compat; assumption]. transitivity (rh * (w * w)); [field; lra|]. rewrite <- K. field. lra.
Qed.

Lemma wave_ex : 0 < U -> exists k, 0 < fst k /\ waveNumber rh w (cmul (creal U) th) k.
Proof.
  intros U0. pose proof (normC_sq th) as R2. pose proof r_pos as Rp. pose proof U_rel as UR. set (rr := normC th) in *. set (t1 := fst th) in *. set (t2 := snd th) in *.
  assert (X : 0 < rr + t1). { assert (0 < U * (2 * (rr * rr))) by (apply Rmult_lt_0_compat; nra). destruct (Rle_dec (rr + t1) 0); [|lra]. assert (c * (rr + t1) <= 0) by nra. lra. }
  set (kr := w * sqrt (rh / c)). assert (Q : 0 < rh / c) by (apply Rdiv_lt_0_compat; lra). assert (Kp : 0 < kr) by (unfold kr; apply Rmult_lt_0_compat; [lra|now apply sqrt_lt_R0]).
  assert (K2 : kr * kr = rh * (w * w) / c). { unfold kr. transitivity (w * w * (sqrt (rh / c) * sqrt (rh / c))); [ring|]. rewrite sqrt_sqrt by lra. field. lra. }
  set (ki := - (t2 / (rr + t1)) * kr). exists (kr, ki). cbn [fst]. split; [exact Kp|]. unfold waveNumber, cmul, creal. cbn [fst snd]. fold t1 t2.
  assert (T2 : t2 * t2 = (rr - t1) * (rr + t1)) by lra.
  assert (Uc : U = c * (rr + t1) / (2 * (rr * rr))) by (rewrite <- UR; field; lra).
  apply f_equal2.
  - transitivity (U * (kr * kr) * (t1 - t1 * (t2 * t2) / ((rr + t1) * (rr + t1)) + 2 * (t2 * t2) / (rr + t1))); [unfold ki; field; lra|]. rewrite T2, K2, Uc. field. repeat split; lra.
  - transitivity (U * (kr * kr) * t2 * (1 - (t2 * t2) / ((rr + t1) * (rr + t1)) - 2 * t1 / (rr + t1))); [unfold ki; field; lra|]. rewrite T2. transitivity (U * (kr * kr) * t2 * 0); [f_equal; field; lra|ring].
Qed.
End Phase.

(** *** Plane waves *)
Lemma D_lin A B h : derivable_pt_lim (fun h => A + B * h) h B.
Proof.
  enough (derivable_pt_lim (fun h => A + B * h) h (0 + B * 1)) by (now replace (0 + B * 1) with B in H by ring). apply (derivable_pt_lim_plus (fun _ => A) (fun h => B * h)); [apply derivable_pt_lim_const|].
  apply (derivable_pt_lim_scal (fun h => h)). apply derivable_pt_lim_id.
Qed.
Lemma D_wave A B G D a1 a2 h : derivable_pt_lim (fun h => exp (A + B * h) * (a1 * cos (G + D * h) - a2 * sin (G + D * h))) h
  (exp (A + B * h) * (B * (a1 * cos (G + D * h) - a2 * sin (G + D * h)) + D * (- a1 * sin (G + D * h) - a2 * cos (G + D * h)))).
Proof.
  assert (E : derivable_pt_lim (fun h => exp (A + B * h)) h (exp (A + B * h) * B)) by (apply (derivable_pt_lim_comp (fun h => A + B * h) exp); [apply D_lin|apply derivable_pt_lim_exp]).
  assert (C : derivable_pt_lim (fun h => cos (G + D * h)) h (- sin (G + D * h) * D)) by (apply (derivable_pt_lim_comp (fun h => G + D * h) cos); [apply D_lin|apply derivable_pt_lim_cos]).
  assert (S : derivable_pt_lim (fun h => sin (G + D * h)) h (cos (G + D * h) * D)) by (apply (derivable_pt_lim_comp (fun h => G + D * h) sin); [apply D_lin|apply derivable_pt_lim_sin]).
  pose proof (derivable_pt_lim_mult _ _ _ _ _ E (derivable_pt_lim_minus _ _ _ _ _ (derivable_pt_lim_scal _ a1 _ _ C) (derivable_pt_lim_scal _ a2 _ _ S))) as M.
  unfold mult_fct, minus_fct, mult_real_fct in M.
  match type of M with derivable_pt_lim _ _ ?l => match goal with |- derivable_pt_lim _ _ ?l' => replace l' with l by ring end end. exact M.
Qed.
Lemma D_ext f g x l : (forall y, f y = g y) -> derivable_pt_lim f x l -> derivable_pt_lim g x l.
Proof. intros E H eps He. destruct (H eps He) as (de & Hd). exists de. intros h H0 H1. rewrite <- !E. auto. Qed.

Lemma strain_nth dd nv v i : (dd = 2 \/ dd = 3)%nat -> (i < nSt dd)%nat -> let pr := nth i (pairs dd) (0, 0)%nat in
  nth i (strainFlux dd nv v) 0 = - strain v nv (fst pr) (snd pr).
Proof. intros [-> | ->] H; cbn in H; do 6 (destruct i as [|i]; [first [lia|reflexivity]|]); lia. Qed.
Lemma flux_nth dd m nv q i : (dd = 2 \/ dd = 3)%nat -> (i < nSt dd)%nat -> let pr := nth i (pairs dd) (0, 0)%nat in
  nth i (flux dd m nv q) 0 = - (lam m * dot dd (vel dd q) nv * delta (fst pr) (snd pr) + 2 * mu m * strain (vel dd q) nv (fst pr) (snd pr)).
Proof. intros [-> | ->] H; cbn in H; do 6 (destruct i as [|i]; [first [lia|reflexivity]|]); lia. Qed.
Lemma flux_mom dd m nv q i : (dd = 2 \/ dd = 3)%nat -> (i < dd)%nat -> nth (nSt dd + i) (flux dd m nv q) 0 = - (traction dd q nv i / rho m).
Proof. intros [-> | ->] H; do 3 (destruct i as [|i]; [first [lia|reflexivity]|]); lia. Qed.
Lemma pairs_lt dd i : (dd = 2 \/ dd = 3)%nat -> (i < nSt dd)%nat -> let pr := nth i (pairs dd) (0, 0)%nat in (fst pr < dd /\ snd pr < dd)%nat.
Proof. intros [-> | ->] H; cbn in H; do 6 (destruct i as [|i]; [first [lia|cbn; lia]|]); lia. Qed.
Lemma sum_delta dd (f : nat -> R) a : (dd = 2 \/ dd = 3)%nat -> (a < dd)%nat -> sum dd (fun j => f j * unitv a j) = f a.
Proof. intros [-> | ->] H; do 3 (destruct a as [|a]; [first [lia|unfold sum, unitv, delta; cbn; ring]|]); lia. Qed.
Lemma sum_delta' dd (f : nat -> R) a : (dd = 2 \/ dd = 3)%nat -> (a < dd)%nat -> sum dd (fun j => f j * unitv j a) = f a.
Proof. intros [-> | ->] H; do 3 (destruct a as [|a]; [first [lia|unfold sum, unitv, delta; cbn; ring]|]); lia. Qed.

Section Wave.
Variables (d : nat) (nn : nat -> R) (w : R) (k : Cx).
Hypothesis Hd : d = 2%nat \/ d = 3%nat.
Local Notation P a := (planeWave d nn w k a).
Definition mik : Cx := cmul (0, -1) k.

Lemma dot_shift x j h : (j < d)%nat -> dot d nn (shift x j h) = dot d nn x + h * nn j.
Proof. destruct Hd as [-> | ->]; intros Hj; do 3 (try destruct j as [|j]; try lia); unfold dot, sum, shift, delta; cbn; ring. Qed.
Lemma P_dt a x t : derivable_pt_lim (fun s => P a x s) t (P (cmul (0, w) a) x t).
Proof.
  unfold planeWave. cbv zeta. set (s := dot d nn x).
  pose proof (D_wave (snd k * s) 0 (- (fst k * s)) w (fst a) (snd a) t) as H.
  match type of H with derivable_pt_lim _ _ ?l => match goal with |- derivable_pt_lim _ _ ?l' => replace l' with l end end.
  - revert H. apply D_ext. intros y. replace (snd k * s + 0 * y) with (snd k * s) by ring. replace (- (fst k * s) + w * y) with (w * y - fst k * s) by ring. reflexivity.
  - replace (snd k * s + 0 * t) with (snd k * s) by ring. replace (- (fst k * s) + w * t) with (w * t - fst k * s) by ring. unfold cmul. cbn [fst snd]. ring.
Qed.
Lemma P_dx a x t j : (j < d)%nat -> derivable_pt_lim (fun h => P a (shift x j h) t) 0 (nn j * P (cmul mik a) x t).
Proof.
  intros Hj. unfold planeWave. cbv zeta. set (s := dot d nn x).
  pose proof (D_wave (snd k * s) (snd k * nn j) (w * t - fst k * s) (- (fst k * nn j)) (fst a) (snd a) 0) as H.
  match type of H with derivable_pt_lim _ _ ?l => match goal with |- derivable_pt_lim _ _ ?l' => replace l' with l end end.
  - revert H. apply D_ext. intros y. rewrite dot_shift by exact Hj. fold s. replace (snd k * s + snd k * nn j * y) with (snd k * (s + y * nn j)) by ring. replace (w * t - fst k * s + - (fst k * nn j) * y) with (w * t - fst k * (s + y * nn j)) by ring. reflexivity.
  - replace (snd k * s + snd k * nn j * 0) with (snd k * s) by ring. replace (w * t - fst k * s + - (fst k * nn j) * 0) with (w * t - fst k * s) by ring. unfold mik, cmul. cbn [fst snd]. ring.
Qed.
(** linearity *)
Lemma P_scal c a x t : P (cmul (creal c) a) x t = c * P a x t.
Proof. unfold planeWave, cmul, creal. cbn [fst snd]. ring. Qed.
Lemma P_add a b x t : P (cadd a b) x t = P a x t + P b x t.
Proof. unfold planeWave, cadd. cbn [fst snd]. ring. Qed.
Lemma P_csum n f x t : P (csum n f) x t = sum n (fun l => P (f l) x t).
Proof.
  unfold planeWave, csum. cbn [fst snd]. cbv zeta. set (e := exp _). set (c := cos _). set (s := sin _).
  induction n; [rewrite !sum_0; ring|]. rewrite !sum_S, <- IHn. ring.
Qed.

(** amplitudes *)
Variables (p : nat -> R) (n : nat) (m : material) (wl : nat -> R) (n0 n1 n2 : nat -> R) (z : nat -> Cx).
Hypotheses (Hw : w <> 0) (Hrho : rho m <> 0) (Hz : remembers n w wl z) (Hnz : forall l, (l < n)%nat -> n0 l = n1 l + n2 l).
Definition lamH : Cx := cadd (creal (lam m)) (csum n (fun l => cmul (creal (n2 l)) (z l))).
Definition muH2 : Cx := cadd (creal (2 * mu m)) (csum n (fun l => cmul (creal (n1 l)) (z l))).
(** the force on planes with normal nn *)
Variable M : Cx.
Hypothesis HM : forall i, (i < d)%nat ->
  cadd (cmul (creal (dot d p nn * nn i)) lamH) (cmul (creal (sum d (fun j => strain p nn i j * nn j))) muH2) = cmul (creal (p i)) M.
Hypothesis Hk : waveNumber (rho m) w M k.

(** -k / w *)
Definition mkw : Cx := cmul (creal (- / w)) k.
Definition sAmp (i j : nat) : Cx := cmul mkw (cadd (cmul (creal (dot d p nn * delta i j)) lamH) (cmul (creal (strain p nn i j)) muH2)).
Definition pr (i : nat) : nat * nat := nth i (pairs d) (0, 0)%nat.
Definition qW (i : nat) : Cx := if (i <? nSt d)%nat then sAmp (fst (pr i)) (snd (pr i)) else creal (p (i - nSt d)%nat).
Definition zW (l i : nat) : Cx := cmul (creal (strain p nn (fst (pr i)) (snd (pr i)))) (cmul mik (z l)).

Lemma amp_mom : forall i, (i < d)%nat -> cmul (0, w) (creal (p i)) = cmul (creal (/ rho m)) (cmul mik (cmul mkw (cmul (creal (p i)) M))).
Proof.
  intros i Hi. unfold waveNumber in Hk. unfold mik, mkw, cmul, creal in *. cbn [fst snd] in *. injection Hk as K1 K2.
  set (kr := fst k) in *. set (ki := snd k) in *. set (m1 := fst M) in *. set (m2 := snd M) in *.
  apply f_equal2.
  - transitivity (/ rho m * (/ w) * p i * - (m1 * (kr * ki + ki * kr) + m2 * (kr * kr - ki * ki))); [rewrite K2; ring|ring].
  - transitivity (/ rho m * (/ w) * p i * (m1 * (kr * kr - ki * ki) - m2 * (kr * ki + ki * kr))); [rewrite K1; field; split; assumption|ring].
Qed.

Lemma P_lin1 a c c' u v x t : P (cmul a (cadd (cmul (creal c) u) (cmul (creal c') v))) x t = c * P (cmul a u) x t + c' * P (cmul a v) x t.
Proof. unfold planeWave, cmul, cadd, creal. cbn [fst snd]. ring. Qed.
Lemma P_lin2 a b c c' u v x t : P (cmul a (cmul b (cadd (cmul (creal c) u) (cmul (creal c') v)))) x t = c * P (cmul a (cmul b u)) x t + c' * P (cmul a (cmul b v)) x t.
Proof. unfold planeWave, cmul, cadd, creal. cbn [fst snd]. ring. Qed.
Lemma P_eff a c (f : nat -> R) x t : P (cmul a (cadd (creal c) (csum n (fun l => cmul (creal (f l)) (z l))))) x t = c * P a x t + sum n (fun l => f l * P (cmul a (z l)) x t).
Proof.
  transitivity (c * P a x t + P (csum n (fun l => cmul (creal (f l)) (cmul a (z l)))) x t).
  - rewrite <- P_scal, <- P_add. f_equal. unfold cmul, cadd, csum, creal. cbn [fst snd]. apply f_equal2.
    + transitivity (c * fst a + (fst a * sum n (fun l => f l * fst (z l) - 0 * snd (z l)) - snd a * sum n (fun l => f l * snd (z l) + 0 * fst (z l)))); [ring|].
      transitivity (c * fst a + (fst a * sum n (fun l => f l * fst (z l) - 0 * snd (z l)) + - snd a * sum n (fun l => f l * snd (z l) + 0 * fst (z l)))); [ring|].
      rewrite <- sum_lin. replace (c * fst a - 0 * snd a) with (c * fst a) by ring. f_equal. apply sum_ext. intros. ring.
    + transitivity (c * snd a + (fst a * sum n (fun l => f l * snd (z l) + 0 * fst (z l)) + snd a * sum n (fun l => f l * fst (z l) - 0 * snd (z l)))); [ring|].
      rewrite <- sum_lin. replace (c * snd a + 0 * fst a) with (c * snd a) by ring. f_equal. apply sum_ext. intros. ring.
  - rewrite P_csum. f_equal. apply sum_ext. intros. apply P_scal.
Qed.

Lemma P_stress i j x t : P (cmul (0, w) (sAmp i j)) x t =
  dot d p nn * delta i j * (lam m * P mik x t + sum n (fun l => n2 l * P (cmul mik (z l)) x t)) + strain p nn i j * (2 * mu m * P mik x t + sum n (fun l => n1 l * P (cmul mik (z l)) x t)).
Proof.
  unfold sAmp. set (u := cadd (cmul _ lamH) _). replace (cmul (0, w) (cmul mkw u)) with (cmul mik u).
  - unfold u. rewrite P_lin1. f_equal; f_equal; apply P_eff.
  - unfold mkw, mik, cmul, creal. cbn [fst snd]. apply f_equal2; field; exact Hw.
Qed.

Definition qF : field := fun i x t => P (qW i) x t.
Definition zF (l : nat) : field := fun i x t => P (zW l i) x t.
Definition qtF : field := fun i x t => P (cmul (0, w) (qW i)) x t.
Definition qxF (j : nat) : field := fun i x t => nn j * P (cmul mik (qW i)) x t.
Definition ztF (l : nat) : field := fun i x t => P (cmul (0, w) (zW l i)) x t.
Definition zxF (l j : nat) : field := fun i x t => nn j * P (cmul mik (zW l i)) x t.

Lemma P_creal c x t : P (cmul mik (creal c)) x t = c * P mik x t.
Proof. unfold planeWave, cmul, creal. cbn [fst snd]. ring. Qed.
Lemma zF_eq l i x t : zF l i x t = strain p nn (fst (pr i)) (snd (pr i)) * P (cmul mik (z l)) x t.
Proof. apply P_scal. Qed.

Lemma row_src l i x t : (l < n)%nat -> (i < nSt d)%nat -> nth i (mv (nSt d) (nSt d) (srcDense 0 d (n0 l) (n1 l) (n2 l)) (vals (nSt d) (zF l) x t)) 0 =
  dot d p nn * delta (fst (pr i)) (snd (pr i)) * (n2 l * P (cmul mik (z l)) x t) + strain p nn (fst (pr i)) (snd (pr i)) * (n1 l * P (cmul mik (z l)) x t).
Proof.
  intros Hl Hi. specialize (Hnz l Hl). unfold vals. rewrite (map_ext _ _ (fun i => zF_eq l i x t)). set (Z := P (cmul mik (z l)) x t). clearbody Z. rewrite Hnz. unfold pr.
  destruct Hd as [-> | ->]; cbn in Hi; do 6 (destruct i as [|i]; [first [lia|unfold mv, sum, dot, delta, strain; cbn; unfold strain; field]|]); lia.
Qed.

Lemma vel_qx j i x t : (i < d)%nat -> vel d (vals (nQt d) (qxF j) x t) i = nn j * p i * P mik x t.
Proof.
  intros Hi. unfold vel, vals. rewrite (nth_indep _ 0 (qxF j 0%nat x t)) by (rewrite map_length, seq_length; unfold nQt; lia).
  rewrite (map_nth (fun i => qxF j i x t) _ 0%nat), seq_nth by (unfold nQt; lia). cbn [plus]. unfold qxF, qW. replace (nSt d + i <? nSt d)%nat with false by (symmetry; apply Nat.ltb_ge; lia).
  replace (nSt d + i - nSt d)%nat with i by lia. rewrite P_creal. ring.
Qed.
Lemma sig_qx j a b x t : (a < d)%nat -> (b < d)%nat -> sig d (vals (nQt d) (qxF j) x t) a b = nn j * P (cmul mik (sAmp a b)) x t.
Proof.
  assert (Sy : forall a b, sAmp a b = sAmp b a). { intros a' b'. unfold sAmp. f_equal. f_equal; f_equal; f_equal; [unfold delta; now rewrite Nat.eqb_sym|unfold strain; f_equal; ring]. }
  intros Ha Hb. unfold sig, vals, qxF, qW, pr. revert Sy. generalize sAmp. intros f Sy. destruct Hd as [-> | ->]; do 3 (destruct a as [|a]; [do 3 (destruct b as [|b]; [first [lia|reflexivity|rewrite Sy; reflexivity]|]); lia|]); try lia.
Qed.
Lemma strain_row i x t : (i < nSt d)%nat -> sum d (fun j => nth i (strainFlux d (unitv j) (vel d (vals (nQt d) (qxF j) x t))) 0) = - (strain p nn (fst (pr i)) (snd (pr i)) * P mik x t).
Proof.
  intros Hi. destruct (pairs_lt d i Hd Hi) as (Ha & Hb). set (Q := P mik x t). unfold pr. set (a := fst _) in *. set (b := snd _) in *.
  rewrite (sum_ext d _ (fun j => - (p a * Q / 2) * (nn j * unitv j b) + - (p b * Q / 2) * (nn j * unitv j a))).
  - rewrite sum_lin, !sum_delta' by assumption. unfold strain. field.
  - intros j Hj. rewrite strain_nth by assumption. cbv zeta. fold a b. unfold strain. rewrite !vel_qx by assumption. fold Q. field.
Qed.
Lemma stress_row i x t : (i < nSt d)%nat -> sum d (fun j => nth i (flux d m (unitv j) (vals (nQt d) (qxF j) x t)) 0) =
  - (P mik x t * (lam m * (dot d p nn * delta (fst (pr i)) (snd (pr i))) + 2 * mu m * strain p nn (fst (pr i)) (snd (pr i)))).
Proof.
  intros Hi. destruct (pairs_lt d i Hd Hi) as (Ha & Hb). set (Q := P mik x t). unfold pr. set (a := fst _) in *. set (b := snd _) in *.
  rewrite (sum_ext d _ (fun j => - (lam m * delta a b * Q) * (p j * nn j) + 1 * (- (mu m * p a * Q) * (nn j * unitv j b) + - (mu m * p b * Q) * (nn j * unitv j a)))).
  - rewrite sum_lin. rewrite (sum_lin d (- (mu m * p a * Q))), !sum_delta' by assumption. unfold strain. fold (dot d p nn). field.
  - intros j Hj. rewrite flux_nth by assumption. cbv zeta. fold a b. unfold strain. rewrite !vel_qx by assumption. fold Q.
    replace (dot d (vel d (vals (nQt d) (qxF j) x t)) (unitv j)) with (nn j * p j * Q); [field|]. unfold dot. rewrite sum_delta by assumption. now rewrite vel_qx.
Qed.
Lemma mom_row i x t : (i < d)%nat -> sum d (fun j => nth (nSt d + i) (flux d m (unitv j) (vals (nQt d) (qxF j) x t)) 0) =
  - (sum d (fun j => nn j * P (cmul mik (sAmp i j)) x t) / rho m).
Proof.
  intros Hi. transitivity (- / rho m * sum d (fun j => nn j * P (cmul mik (sAmp i j)) x t)); [|field; exact Hrho]. rewrite <- sum_scal. apply sum_ext. intros j Hj.
  rewrite flux_mom by assumption. unfold traction. rewrite sum_delta by assumption. rewrite sig_qx by assumption. field. exact Hrho.
Qed.

Lemma plane_ok : viscoelastic d n m wl (fun l => srcDense 0 d (n0 l) (n1 l) (n2 l)) qF zF.
Proof.
  exists qtF, qxF, ztF, zxF. split; [|split].
  - intros i x t. split; [apply P_dt|]. intros j Hj. now apply P_dx.
  - intros l Hl i x t. split; [apply P_dt|]. intros j Hj. now apply P_dx.
  - intros x t. split.
    + intros i Hi. destruct (Nat.ltb_spec i (nSt d)) as [Hs|Hs].
      * rewrite stress_row by exact Hs. unfold qtF, qW. apply Nat.ltb_lt in Hs. rewrite Hs. apply Nat.ltb_lt in Hs. rewrite P_stress.
        rewrite (sum_ext n _ _ (fun l Hl => row_src l i x t Hl Hs)). rewrite sum_lin. ring.
      * replace i with (nSt d + (i - nSt d))%nat by lia. rewrite mom_row by (unfold nQt in Hi; lia). set (a := (i - nSt d)%nat). assert (Ha : (a < d)%nat) by (unfold nQt in Hi; lia).
        unfold qtF, qW. replace (nSt d + a <? nSt d)%nat with false by (symmetry; apply Nat.ltb_ge; lia). replace (nSt d + a - nSt d)%nat with a by lia.
        rewrite amp_mom by exact Ha. rewrite P_scal, <- HM by exact Ha. rewrite P_lin2.
        rewrite (sum_ext d (fun j => nn j * P (cmul mik (sAmp a j)) x t) (fun j => P (cmul mik (cmul mkw lamH)) x t * (dot d p nn * (nn j * delta a j)) + P (cmul mik (cmul mkw muH2)) x t * (strain p nn a j * nn j))) by (intros j Hj; unfold sAmp; rewrite P_lin2; ring).
        rewrite sum_lin, sum_scal. replace (sum d (fun j => nn j * delta a j)) with (nn a); [field; exact Hrho|].
        destruct Hd as [-> | ->]; do 3 (destruct a as [|a]; [first [lia|unfold sum, delta; cbn; ring]|]); lia.
    + intros l i Hl Hi. rewrite strain_row by exact Hi. fold (zF l i x t). rewrite zF_eq. unfold ztF, zW. set (e := strain p nn _ _). specialize (Hz l Hl).
      transitivity (e * P (cmul mik (cmul (0, w) (z l))) x t).
      * rewrite <- P_scal. f_equal. unfold cmul, creal. cbn [fst snd]. apply f_equal2; ring.
      * rewrite Hz. unfold planeWave, cmul, cadd, creal. cbn [fst snd]. ring.
Qed.
Lemma plane_vel i x t : qF (nSt d + i)%nat x t = P (creal (p i)) x t.
Proof. unfold qF, qW. replace (nSt d + i <? nSt d)%nat with false by (symmetry; apply Nat.ltb_ge; lia). now replace (nSt d + i - nSt d)%nat with i by lia. Qed.
End Wave.

(** plane waves in media with source matrices given by their values *)
Lemma viscoelastic_ext d n m wl src src' q ze : (forall l, (l < n)%nat -> src l = src' l) -> viscoelastic d n m wl src q ze -> viscoelastic d n m wl src' q ze.
Proof.
  intros E (qt & qx & zt & zx & D1 & D2 & H). exists qt, qx, zt, zx. split; [exact D1|]. split; [exact D2|]. intros x t. destruct (H x t) as (H1 & H2). split; [|exact H2].
  intros i Hi. rewrite H1 by exact Hi. destruct (i <? nSt d)%nat; [|reflexivity]. apply sum_ext. intros l Hl. now rewrite E.
Qed.
Lemma strain_along d p nn i : d = 2%nat \/ d = 3%nat -> sum d (fun j => strain p nn i j * nn j) = (p i * dot d nn nn + nn i * dot d p nn) / 2.
Proof. intros [-> | ->]; unfold sum, dot, strain, sum; cbn; field. Qed.
Lemma waves_P d n m wl n0 n1 n2 w z k nn : d = 2%nat \/ d = 3%nat -> w <> 0 -> rho m <> 0 -> dot d nn nn = 1 -> remembers n w wl z -> (forall l, (l < n)%nat -> n0 l = n1 l + n2 l) ->
  waveNumber (rho m) w (modP n m (fun l => srcDense 0 d (n0 l) (n1 l) (n2 l)) z) k ->
  exists q ze, viscoelastic d n m wl (fun l => srcDense 0 d (n0 l) (n1 l) (n2 l)) q ze /\ forall i x t, (i < d)%nat -> q (nSt d + i)%nat x t = planeWave d nn w k (creal (nn i)) x t.
Proof.
  intros Hd Hw Hrh Hnn Hz Hs Hk.
  enough (HM : forall i, (i < d)%nat -> cadd (cmul (creal (dot d nn nn * nn i)) (lamH n m n2 z)) (cmul (creal (sum d (fun j => strain nn nn i j * nn j))) (muH2 n m n1 z)) =
      cmul (creal (nn i)) (modP n m (fun l => srcDense 0 d (n0 l) (n1 l) (n2 l)) z)).
  { exists (qF d nn w k nn n m n1 n2 z), (zF d nn w k nn z). split; [exact (plane_ok d nn w k Hd nn n m wl n0 n1 n2 z Hw Hrh Hz Hs _ HM Hk)|]. intros. exact (plane_vel d nn w k Hd nn n m n0 n1 n2 z Hs _ HM i x t). }
  intros i Hi. rewrite strain_along by exact Hd. rewrite Hnn. unfold modP, lamH, muH2.
  rewrite (csum_ext n (fun l => cmul (creal (nth 0 _ 0)) (z l)) (fun l => cmul (creal (n1 l + n2 l)) (z l))) by (intros l Hl; rewrite <- Hs by exact Hl; destruct Hd as [-> | ->]; reflexivity).
  unfold cadd, cmul, creal, csum. cbn [fst snd].
  rewrite (sum_ext n (fun l => (n1 l + n2 l) * fst (z l) - 0 * snd (z l)) (fun l => 1 * (n1 l * fst (z l) - 0 * snd (z l)) + 1 * (n2 l * fst (z l) - 0 * snd (z l)))) by (intros; ring).
  rewrite (sum_ext n (fun l => (n1 l + n2 l) * snd (z l) + 0 * fst (z l)) (fun l => 1 * (n1 l * snd (z l) + 0 * fst (z l)) + 1 * (n2 l * snd (z l) + 0 * fst (z l)))) by (intros; ring).
  rewrite !sum_lin. apply f_equal2; field.
Qed.
Lemma waves_S d n m wl n0 n1 n2 w z k nn p : d = 2%nat \/ d = 3%nat -> w <> 0 -> rho m <> 0 -> dot d nn nn = 1 -> dot d p nn = 0 -> remembers n w wl z -> (forall l, (l < n)%nat -> n0 l = n1 l + n2 l) ->
  waveNumber (rho m) w (modS d n m (fun l => srcDense 0 d (n0 l) (n1 l) (n2 l)) z) k ->
  exists q ze, viscoelastic d n m wl (fun l => srcDense 0 d (n0 l) (n1 l) (n2 l)) q ze /\ forall i x t, (i < d)%nat -> q (nSt d + i)%nat x t = planeWave d nn w k (creal (p i)) x t.
Proof.
  intros Hd Hw Hrh Hnn Hp Hz Hs Hk.
  enough (HM : forall i, (i < d)%nat -> cadd (cmul (creal (dot d p nn * nn i)) (lamH n m n2 z)) (cmul (creal (sum d (fun j => strain p nn i j * nn j))) (muH2 n m n1 z)) =
      cmul (creal (p i)) (modS d n m (fun l => srcDense 0 d (n0 l) (n1 l) (n2 l)) z)).
  { exists (qF d nn w k p n m n1 n2 z), (zF d nn w k p z). split; [exact (plane_ok d nn w k Hd p n m wl n0 n1 n2 z Hw Hrh Hz Hs _ HM Hk)|]. intros. exact (plane_vel d nn w k Hd p n m n0 n1 n2 z Hs _ HM i x t). }
  intros i Hi. rewrite strain_along by exact Hd. rewrite Hnn, Hp. unfold modS, lamH, muH2.
  rewrite (csum_ext n (fun l => cmul (creal (nth _ _ 0 / 2)) (z l)) (fun l => cmul (creal (n1 l / 2)) (z l))) by (intros l Hl; destruct Hd as [-> | ->]; reflexivity).
  unfold cadd, cmul, creal, csum. cbn [fst snd].
  rewrite (sum_ext n (fun l => n1 l / 2 * fst (z l) - 0 * snd (z l)) (fun l => / 2 * (n1 l * fst (z l) - 0 * snd (z l)))) by (intros; field).
  rewrite (sum_ext n (fun l => n1 l / 2 * snd (z l) + 0 * fst (z l)) (fun l => / 2 * (n1 l * snd (z l) + 0 * fst (z l)))) by (intros; field).
  rewrite !sum_scal. apply f_equal2; field.
Qed.

(** *** Fit of the quality factor *)
Lemma nth_rows (f : nat -> nat -> R) r c i j : (i < r)%nat -> (j < c)%nat -> nth (i * c + j) (flat_map (fun i => map (f i) (seq 0 c)) (seq 0 r)) 0 = f i j.
Proof.
  assert (G : forall r b i, (i < r)%nat -> (j < c)%nat -> nth (i * c + j) (flat_map (fun i => map (f i) (seq 0 c)) (seq b r)) 0 = f (b + i)%nat j).
  { clear. induction r as [|r IH]; intros b i Hi Hj; [lia|]. cbn [seq flat_map]. destruct i as [|i].
    - rewrite app_nth1 by (rewrite map_length, seq_length; lia). cbn [Nat.mul plus]. rewrite (nth_indep _ 0 (f b 0%nat)) by (rewrite map_length, seq_length; lia). rewrite (map_nth (f b) _ 0%nat), seq_nth by lia. f_equal; lia.
    - rewrite app_nth2 by (rewrite map_length, seq_length; nia). rewrite map_length, seq_length. replace (S i * c + j - c)%nat with (i * c + j)%nat by nia. rewrite IH by lia. f_equal; lia. }
  intros Hi Hj. now rewrite G.
Qed.

Lemma rows_length (f : nat -> nat -> R) c r b : length (flat_map (fun i => map (f i) (seq 0 c)) (seq b r)) = (r * c)%nat.
Proof. revert b. induction r as [|r IH]; intros b; [reflexivity|]. cbn [seq flat_map]. rewrite app_length, map_length, seq_length, IH. lia. Qed.
Lemma fitMat_length n q fs : length (fitMat n q fs) = ((2 * n - 1) * n)%nat.
Proof. apply (rows_length (fun fr me => (nth (me * 2) fs 0 * nth fr fs 0 + nth (me * 2) fs 0 * nth (me * 2) fs 0 * q) / (nth fr fs 0 * nth fr fs 0 + nth (me * 2) fs 0 * nth (me * 2) fs 0))). Qed.
Lemma nth_map_seq (f : nat -> R) n l : (l < n)%nat -> nth l (map f (seq 0 n)) 0 = f l.
Proof. intros H. rewrite (nth_indep _ 0 (f 0%nat)) by (rewrite map_length, seq_length; lia). rewrite (map_nth f _ 0%nat), seq_nth by lia. reflexivity. Qed.

Section Quality.
Variables (n : nat) (fc fr : R).
Hypotheses (Hn : (1 <= n)%nat) (Hc : 0 < fc) (Hr : 0 < fr).
Local Notation fs := (frequencies n fc fr).
Local Notation wl := (fun l => nth (l * 2) fs 0).

Lemma residual_misfit q y i z : q <> 0 -> (i < 2 * n - 1)%nat -> remembers n (nth i fs 0) wl z ->
  misfit q (relMod n (fun l => nth l y 0) z) = residual n (fitMat n (1 / q) fs) (fitRhs n (1 / q)) y i.
Proof.
  intros Hq Hi Hz. rewrite (relMod_eq n (fun l => nth l y 0) (nth i fs 0) wl z Hz) by (intros l Hl; apply freqs_pos; auto; lia). unfold misfit, residual. cbn [fst snd].
  unfold fitRhs. rewrite (nth_indep (repeat (1 / q) (2 * n - 1)) 0 (1 / q)) by (rewrite repeat_length; exact Hi). rewrite nth_repeat. set (w := nth i fs 0).
  rewrite (sum_ext n (fun j => nth (i * n + j) _ 0 * _) (fun l => 1 * (nth l y 0 * (wl l * w / (wl l * wl l + w * w))) + (1 / q) * (nth l y 0 * (wl l * wl l / (wl l * wl l + w * w))))).
  - rewrite sum_lin. field. exact Hq.
  - intros l Hl. unfold fitMat. rewrite (nth_rows (fun fr0 me => (nth (me * 2) fs 0 * nth fr0 fs 0 + nth (me * 2) fs 0 * nth (me * 2) fs 0 * (1 / q)) / (nth fr0 fs 0 * nth fr0 fs 0 + nth (me * 2) fs 0 * nth (me * 2) fs 0)) (2 * n - 1) n i l Hi Hl).
    fold w. pose proof (freqs_pos n fc fr Hn Hc Hr (l * 2) ltac:(lia)) as Pl. set (u := nth (l * 2) fs 0) in *. assert (D : u * u + w * w <> 0) by (pose proof (Rle_0_sqr w); unfold Rsqr in *; nra). field. repeat split; try exact Hq; try exact D.
Qed.
End Quality.
