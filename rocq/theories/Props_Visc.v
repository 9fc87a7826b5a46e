(** C94: attenuation.  Specification: ViscSpec (moduli, quality factors, wave numbers, the equations of a viscoelastic medium, least squares) and ElSpec. *)
From Coq Require Import List Arith Bool Reals Lra Lia.
From Verif Require Import Util FakeMats ElSpec ViscSpec Visc ViscV.
From Verif Require LeastSq.
Import ListNotations.
Open Scope R_scope.

(** *** Relaxation frequencies *)

(** Two or more mechanisms: 2n - 1 frequencies, evenly spaced on a logarithmic scale over the band with the given ratio, whose middle is the central frequency. *)
Theorem C94_frequencies n fc fr : (2 <= n)%nat -> 0 < fc -> 0 < fr -> let f k := nth k (frequencies n fc fr) 0 in
  length (frequencies n fc fr) = (2 * n - 1)%nat /\ (forall k, (k < 2 * n - 1)%nat -> 0 < f k) /\
  (exists c, 0 < c /\ forall k, (S k < 2 * n - 1)%nat -> f (S k) = c * f k) /\
  f (2 * n - 2)%nat = fr * f 0%nat /\ f (n - 1)%nat = 2 * PI * fc.
Proof.
  intros Hn Hc Hr f. assert (Hn' : (1 <= n)%nat) by lia. pose proof (f0_pos fc fr Hc Hr) as F0. set (f0 := 2 * PI * fc / sqrt fr) in *.
  assert (E : forall k, (k < 2 * n - 1)%nat -> f k = exp (ln f0 + INR k * ln fr / INR (2 * (n - 1)))) by (intros k Hk; now apply freqs_nth).
  assert (N0 : 0 < INR (n - 1)) by (apply (lt_INR 0); lia).
  split; [apply freqs_length; auto|]. split; [intros k Hk; apply freqs_pos; auto|]. split; [|split].
  - exists (exp (ln fr / INR (2 * (n - 1)))). split; [apply exp_pos|]. intros k Hk. rewrite !E by lia. rewrite <- exp_plus, S_INR. f_equal. rewrite mult_INR. simpl (INR 2). field. lra.
  - rewrite !E by lia. transitivity (exp (ln fr) * exp (ln f0 + INR 0 * ln fr / INR (2 * (n - 1)))); [|now rewrite (exp_ln fr)]. rewrite <- exp_plus. f_equal. replace (2 * n - 2)%nat with (2 * (n - 1))%nat by lia. simpl (INR 0). field. rewrite mult_INR. simpl (INR 2). lra.
  - rewrite E by lia. rewrite mult_INR. simpl (INR 2). replace (ln f0 + INR (n - 1) * ln fr / ((1 + 1) * INR (n - 1))) with (ln f0 + ln fr / 2) by (field; lra).
    rewrite exp_plus, exp_ln by exact F0. assert (S : exp (ln fr / 2) = sqrt fr).
    { symmetry. apply sqrt_lem_1; [lra|left; apply exp_pos|]. rewrite <- exp_plus. replace (ln fr / 2 + ln fr / 2) with (ln fr) by field. now apply exp_ln. }
    rewrite S. unfold f0. field. apply Rgt_not_eq, sqrt_lt_R0; exact Hr.
Qed.

(** One mechanism: its frequency is the lower end of the band, not the central frequency. *)
Theorem C94_one_mechanism fc fr : frequencies 1 fc fr = [2 * PI * fc / sqrt fr].
Proof. reflexivity. Qed.
Theorem C94_one_mechanism_centre_refuted : exists fc fr, 0 < fc /\ 0 < fr /\ frequencies 1 fc fr <> [2 * PI * fc].
Proof.
  exists 1, 4. split; [lra|]. split; [lra|]. rewrite C94_one_mechanism. replace 4 with (2 * 2) by ring. rewrite sqrt_square by lra. intros H. injection H as H. pose proof PI_RGT_0. lra.
Qed.

(** the kernels get every second frequency *)
Theorem C94_kernel_frequencies n fc fr : (1 <= n)%nat -> exists l, kernelFreqs n fc fr = Ok l /\ length l = n /\ forall m, (m < n)%nat -> nth m l 0 = nth (m * 2) (frequencies n fc fr) 0.
Proof.
  intros Hn. unfold kernelFreqs. set (fs := frequencies n fc fr). assert (L : length fs = (2 * n - 1)%nat) by (apply freqs_length; exact Hn).
  destruct (for_ok (fun k l => length l = (2 * n - 1)%nat /\ forall i, nth i l 0 = if (i <? k)%nat then nth (i * 2) fs 0 else nth i fs 0) 0 n
    (fun rm rfs => x <- rd rfs (rm * 2);; wr rfs rm x) fs) as (l & El & Ll & Hl).
  - lia.
  - split; [exact L|]. reflexivity.
  - intros k l Hk (Ll & Hl). destruct (nth_error l (k * 2)) as [x|] eqn:Ex; [|apply nth_error_None in Ex; lia]. rewrite (rd_some _ _ _ Ex). cbn [bind]. rewrite wr_ok by lia. eexists. split; [reflexivity|].
    split; [now rewrite length_upd|]. intros i. assert (X : x = nth (k * 2) fs 0).
    { rewrite <- (nth_error_nth l (k * 2) 0 Ex), Hl. destruct (Nat.ltb_spec (k * 2) k); [lia|reflexivity]. }
    destruct (Nat.eq_dec i k) as [->|Hi].
    + rewrite nth_upd_eq by lia. replace (k <? S k)%nat with true by (symmetry; apply Nat.ltb_lt; lia). exact X.
    + rewrite nth_upd_ne by auto. rewrite Hl. destruct (Nat.ltb_spec i k), (Nat.ltb_spec i (S k)); try lia; reflexivity.
  - rewrite El. cbn [bind]. eexists. split; [reflexivity|]. split; [rewrite firstn_length; lia|]. intros m Hm. rewrite <- (firstn_skipn n l) in Hl. specialize (Hl m). rewrite app_nth1 in Hl by (rewrite firstn_length; lia).
    rewrite Hl. now replace (m <? n)%nat with true by (symmetry; apply Nat.ltb_lt; lia).
Qed.

Section C94.
(** Eigen's solver *)
Variable solve : nat -> nat -> list R -> list R -> list R.
Variables (d n : nat) (fc fr qp qs rh lamP muP lamE muE : R) (s : list (list R)).
Hypotheses (Hd : d = 2%nat \/ d = 3%nat) (Hn : (1 <= n)%nat) (Hc : 0 < fc) (Hr : 0 < fr).
(** the set-up succeeds with elastic parameters lamE, muE and source matrices s *)
Hypothesis Hs : srcMats solve d n fc fr qp qs lamP muP = Ok (lamE, muE, s).
Local Notation f := (fun k => nth k (frequencies n fc fr) 0).
Local Notation wl := (fun l => nth (l * 2) (frequencies n fc fr) 0).
Local Notation medium := {| rho := rh; lam := lamE; mu := muE |}.
Local Notation src := (fun l => nth l s []).

(** *** Phase velocities: at the central frequency, compressional and shear waves travel with the velocities of the given parameters. *)
Theorem C94_phase_velocity_P z k : 0 < rh -> 0 < lamP + 2 * muP -> remembers n (2 * PI * fc) wl z ->
  waveNumber rh (2 * PI * fc) (modP n medium src z) k -> 0 < fst k -> 2 * PI * fc / fst k = speedP {| rho := rh; lam := lamP; mu := muP |}.
Proof.
  intros Hrh Hp Hz. destruct (srcMats_inv solve d n fc fr qp qs lamP muP Hn Hc Hr lamE muE s Hs) as (_ & _ & _ & N1 & _ & E1 & _ & E2). rewrite E2. rewrite modP_rel by exact Hd.
  rewrite (relMod_eq n _ _ _ z Hz) by (intros l Hl; apply freqs_pos; auto; lia). intros Hk Hp'. unfold speedP. cbn [rho lam mu].
  refine (phase rh (2 * PI * fc) (lamP + 2 * muP) (lamE + 2 * muE) (refMod n fc fr _) _ _ _ N1 E1 k Hk Hp'); try assumption. pose proof PI_RGT_0. nra.
Qed.
Theorem C94_phase_velocity_S z k : 0 < rh -> 0 < muP -> remembers n (2 * PI * fc) wl z ->
  waveNumber rh (2 * PI * fc) (modS d n medium src z) k -> 0 < fst k -> 2 * PI * fc / fst k = speedS {| rho := rh; lam := lamP; mu := muP |}.
Proof.
  intros Hrh Hp Hz. destruct (srcMats_inv solve d n fc fr qp qs lamP muP Hn Hc Hr lamE muE s Hs) as (_ & _ & _ & _ & N1 & _ & E1 & E2). rewrite E2. rewrite modS_rel by exact Hd.
  rewrite (relMod_eq n _ _ _ z Hz) by (intros l Hl; apply freqs_pos; auto; lia). intros Hk Hp'. unfold speedS. cbn [rho lam mu].
  refine (phase rh (2 * PI * fc) muP muE (refMod n fc fr _) _ _ _ N1 E1 k Hk Hp'); try assumption. pose proof PI_RGT_0. nra.
Qed.
(** such waves exist if the elastic moduli are positive *)
Theorem C94_waves_exist z : 0 < rh -> remembers n (2 * PI * fc) wl z ->
  (0 < lamP + 2 * muP -> 0 < lamE + 2 * muE -> exists k, 0 < fst k /\ waveNumber rh (2 * PI * fc) (modP n medium src z) k) /\
  (0 < muP -> 0 < muE -> exists k, 0 < fst k /\ waveNumber rh (2 * PI * fc) (modS d n medium src z) k).
Proof.
  intros Hrh Hz. destruct (srcMats_inv solve d n fc fr qp qs lamP muP Hn Hc Hr lamE muE s Hs) as (_ & _ & _ & N1 & N2 & E1 & E3 & E2). rewrite E2. rewrite modP_rel, modS_rel by exact Hd.
  rewrite !(relMod_eq n _ _ _ z Hz) by (intros l Hl; apply freqs_pos; auto; lia). assert (W : 0 < 2 * PI * fc) by (pose proof PI_RGT_0; nra). split; intros H1 H2.
  - exact (wave_ex rh (2 * PI * fc) (lamP + 2 * muP) (lamE + 2 * muE) (refMod n fc fr _) Hrh W H1 N1 E1 H2).
  - exact (wave_ex rh (2 * PI * fc) muP muE (refMod n fc fr _) Hrh W H1 N2 E3 H2).
Qed.

(** *** Quality factors: no other coefficients fit the requested quality factors better, in the sense of least squares over the 2n - 1 frequencies. *)
Theorem C94_quality_P (z : nat -> nat -> Cx) y : (forall a b, length a = ((2 * n - 1) * n)%nat -> length b = (2 * n - 1)%nat -> leastSquares (2 * n - 1) n a b (solve (2 * n - 1) n a b)) ->
  (forall k, (k < 2 * n - 1)%nat -> remembers n (f k) wl (z k)) ->
  sumSq (2 * n - 1) (fun k => misfit qp (modP n medium src (z k))) <= sumSq (2 * n - 1) (fun k => misfit qp (cmul (creal (lamE + 2 * muE)) (relMod n y (z k)))).
Proof.
  intros C Hz. destruct (srcMats_inv solve d n fc fr qp qs lamP muP Hn Hc Hr lamE muE s Hs) as (Q & _ & _ & _ & _ & _ & _ & E2). rewrite E2.
  set (a := fitMat n (1 / qp) (frequencies n fc fr)) in *. set (b := fitRhs n (1 / qp)) in *.
  destruct (C a b) as (Lx & Min); [apply fitMat_length|apply repeat_length|]. specialize (Min (map y (seq 0 n))). rewrite map_length, seq_length in Min. specialize (Min eq_refl).
  assert (M : forall M' U, misfit qp (cmul (creal U) M') = U * misfit qp M') by (intros; unfold misfit, cmul, creal; cbn [fst snd]; field; exact Q).
  rewrite (sumSq_ext _ _ (fun k => (lamE + 2 * muE) * residual n a b (solve (2 * n - 1) n a b) k)).
  2:{ intros k Hk. rewrite modP_rel by exact Hd. rewrite M. f_equal. apply residual_misfit; auto. }
  rewrite (sumSq_ext _ (fun k => misfit qp (cmul _ (relMod n y _))) (fun k => (lamE + 2 * muE) * residual n a b (map y (seq 0 n)) k)).
  2:{ intros k Hk. rewrite M. f_equal. unfold a, b. rewrite <- (residual_misfit n fc fr Hn Hc Hr qp (map y (seq 0 n)) k (z k) Q Hk (Hz k Hk)). f_equal. unfold relMod. f_equal. apply csum_ext. intros l Hl. now rewrite nth_map_seq. }
  rewrite !sumSq_scal. apply Rmult_le_compat_l; [apply Rle_0_sqr|exact Min].
Qed.
Theorem C94_quality_S (z : nat -> nat -> Cx) y : (forall a b, length a = ((2 * n - 1) * n)%nat -> length b = (2 * n - 1)%nat -> leastSquares (2 * n - 1) n a b (solve (2 * n - 1) n a b)) ->
  (forall k, (k < 2 * n - 1)%nat -> remembers n (f k) wl (z k)) ->
  sumSq (2 * n - 1) (fun k => misfit qs (modS d n medium src (z k))) <= sumSq (2 * n - 1) (fun k => misfit qs (cmul (creal muE) (relMod n y (z k)))).
Proof.
  intros C Hz. destruct (srcMats_inv solve d n fc fr qp qs lamP muP Hn Hc Hr lamE muE s Hs) as (_ & Q & _ & _ & _ & _ & _ & E2). rewrite E2.
  set (a := fitMat n (1 / qs) (frequencies n fc fr)) in *. set (b := fitRhs n (1 / qs)) in *.
  destruct (C a b) as (Lx & Min); [apply fitMat_length|apply repeat_length|]. specialize (Min (map y (seq 0 n))). rewrite map_length, seq_length in Min. specialize (Min eq_refl).
  assert (M : forall M' U, misfit qs (cmul (creal U) M') = U * misfit qs M') by (intros; unfold misfit, cmul, creal; cbn [fst snd]; field; exact Q).
  rewrite (sumSq_ext _ _ (fun k => muE * residual n a b (solve (2 * n - 1) n a b) k)).
  2:{ intros k Hk. rewrite modS_rel by exact Hd. rewrite M. f_equal. apply residual_misfit; auto. }
  rewrite (sumSq_ext _ (fun k => misfit qs (cmul _ (relMod n y _))) (fun k => muE * residual n a b (map y (seq 0 n)) k)).
  2:{ intros k Hk. rewrite M. f_equal. unfold a, b. rewrite <- (residual_misfit n fc fr Hn Hc Hr qs (map y (seq 0 n)) k (z k) Q Hk (Hz k Hk)). f_equal. unfold relMod. f_equal. apply csum_ext. intros l Hl. now rewrite nth_map_seq. }
  rewrite !sumSq_scal. apply Rmult_le_compat_l; [apply Rle_0_sqr|exact Min].
Qed.

(** with one mechanism, the quality factors at its frequency are the requested ones *)
Theorem C94_quality_one z : n = 1%nat -> qp <> -1 -> qs <> -1 ->
  (forall a b, length a = 1%nat -> length b = 1%nat -> leastSquares 1 1 a b (solve 1 1 a b)) -> remembers n (f 0%nat) wl z ->
  fst (modP n medium src z) = qp * snd (modP n medium src z) /\ fst (modS d n medium src z) = qs * snd (modS d n medium src z).
Proof.
  intros N1 Qp Qs C Hz. destruct (srcMats_inv solve d n fc fr qp qs lamP muP Hn Hc Hr lamE muE s Hs) as (P0 & S0 & _ & _ & _ & _ & _ & _).
  pose proof (freqs_pos n fc fr Hn Hc Hr 0 ltac:(lia)) as W0.
  assert (G : forall q M U, q <> 0 -> q <> -1 -> sumSq (2 * n - 1) (fun _ => misfit q M) <= sumSq (2 * n - 1) (fun _ => misfit q (cmul (creal U) (relMod n (fun _ => 2 / (q + 1)) z))) -> fst M = q * snd M).
  { intros q M U H0 H1 H. assert (E : misfit q (cmul (creal U) (relMod n (fun _ => 2 / (q + 1)) z)) = 0).
    { rewrite (relMod_eq n _ _ _ z Hz) by (intros l Hl; apply freqs_pos; auto; lia). rewrite N1 in *. unfold misfit, cmul, creal, sum. cbn [fst snd seq fold_left]. rewrite Nat.mul_0_l. set (u := nth 0 (frequencies 1 fc fr) 0) in *. field. repeat split; try assumption; nra. }
    rewrite (sumSq_ext _ (fun _ => misfit q (cmul _ _)) (fun _ => 0)) in H by (intros; exact E). pose proof (sumSq_zero (2 * n - 1) (fun _ => misfit q M)) as Z. cbv beta in Z.
    assert (Y : misfit q M = 0). { apply (Z) with (i := 0%nat); [|lia]. replace 0 with (sumSq (2 * n - 1) (fun _ => 0)) by (apply sum_zero; intros; ring). exact H. }
    unfold misfit in Y. assert (snd M = fst M / q) as -> by lra. field. exact H0. }
  assert (C' : forall a b, length a = ((2 * n - 1) * n)%nat -> length b = (2 * n - 1)%nat -> leastSquares (2 * n - 1) n a b (solve (2 * n - 1) n a b)) by (rewrite N1; exact C).
  split.
  - apply (G qp _ (lamE + 2 * muE) P0 Qp). apply (C94_quality_P (fun _ => z) _ C'). intros k Hk. now replace k with 0%nat by lia.
  - apply (G qs _ muE S0 Qs). apply (C94_quality_S (fun _ => z) _ C'). intros k Hk. now replace k with 0%nat by lia.
Qed.

(** *** Plane waves: the wave numbers of the moduli are the ones of plane waves in any direction nn, which solve the equations with the elastic parameters, the frequencies of
    the kernels and the source matrices: compressional waves, which move along nn, and shear waves, which move along a direction p across nn. *)
Theorem C94_plane_wave_P w z k nn : w <> 0 -> rh <> 0 -> dot d nn nn = 1 -> remembers n w wl z -> waveNumber rh w (modP n medium src z) k ->
  exists q ze, viscoelastic d n medium wl src q ze /\ forall i x t, (i < d)%nat -> q (nSt d + i)%nat x t = planeWave d nn w k (creal (nn i)) x t.
Proof.
  intros Hw Hrh Hnn Hz. destruct (srcMats_inv solve d n fc fr qp qs lamP muP Hn Hc Hr lamE muE s Hs) as (_ & _ & _ & _ & _ & _ & _ & E2).
  set (yP := solve _ _ _ (fitRhs n (1 / qp))) in E2. set (yS := solve _ _ _ (fitRhs n (1 / qs))) in E2.
  set (n0 := fun l => - (lamE + 2 * muE) * nth l yP 0). set (n1 := fun l => - (2 * muE) * nth l yS 0). set (n2 := fun l => - (lamE + 2 * muE) * nth l yP 0 + 2 * muE * nth l yS 0).
  assert (E : forall l, (l < n)%nat -> srcDense 0 d (n0 l) (n1 l) (n2 l) = nth l s []) by (intros l Hl; rewrite E2; now rewrite (nth_srcs _ n l Hl)).
  intros Hk. destruct (waves_P d n medium wl n0 n1 n2 w z k nn Hd Hw Hrh Hnn Hz) as (q & ze & V & H).
  - intros l Hl. unfold n0, n1, n2. ring.
  - replace (modP n medium (fun l => srcDense 0 d (n0 l) (n1 l) (n2 l)) z) with (modP n medium src z); [exact Hk|]. unfold modP. f_equal. apply csum_ext. intros l Hl. now rewrite E.
  - exists q, ze. split; [|exact H]. eapply viscoelastic_ext; [|exact V]. exact E.
Qed.
Theorem C94_plane_wave_S w z k nn p : w <> 0 -> rh <> 0 -> dot d nn nn = 1 -> dot d p nn = 0 -> remembers n w wl z -> waveNumber rh w (modS d n medium src z) k ->
  exists q ze, viscoelastic d n medium wl src q ze /\ forall i x t, (i < d)%nat -> q (nSt d + i)%nat x t = planeWave d nn w k (creal (p i)) x t.
Proof.
  intros Hw Hrh Hnn Hp Hz. destruct (srcMats_inv solve d n fc fr qp qs lamP muP Hn Hc Hr lamE muE s Hs) as (_ & _ & _ & _ & _ & _ & _ & E2).
  set (yP := solve _ _ _ (fitRhs n (1 / qp))) in E2. set (yS := solve _ _ _ (fitRhs n (1 / qs))) in E2.
  set (n0 := fun l => - (lamE + 2 * muE) * nth l yP 0). set (n1 := fun l => - (2 * muE) * nth l yS 0). set (n2 := fun l => - (lamE + 2 * muE) * nth l yP 0 + 2 * muE * nth l yS 0).
  assert (E : forall l, (l < n)%nat -> srcDense 0 d (n0 l) (n1 l) (n2 l) = nth l s []) by (intros l Hl; rewrite E2; now rewrite (nth_srcs _ n l Hl)).
  intros Hk. destruct (waves_S d n medium wl n0 n1 n2 w z k nn p Hd Hw Hrh Hnn Hp Hz) as (q & ze & V & H).
  - intros l Hl. unfold n0, n1, n2. ring.
  - replace (modS d n medium (fun l => srcDense 0 d (n0 l) (n1 l) (n2 l)) z) with (modS d n medium src z); [exact Hk|]. unfold modS. f_equal. apply csum_ext. intros l Hl. now rewrite E.
  - exists q, ze. split; [|exact H]. eapply viscoelastic_ext; [|exact V]. exact E.
Qed.
End C94.

(** every element gets the elastic parameters and matrices of its own material *)
Theorem C94_all_elements solve d n fc fr : forall bg bg' ss, initSrcA solve d n fc fr bg = Ok (bg', ss) -> length bg' = length bg /\ length ss = length bg /\
  forall e b, nth_error bg e = Some b -> exists b' s, nth_error bg' e = Some b' /\ nth_error ss e = Some s /\ bQp b' = bQp b /\ bQs b' = bQs b /\
    srcMats solve d n fc fr (bQp b) (bQs b) (bLam b) (bMu b) = Ok (bLam b', bMu b', s).
Proof.
  induction bg as [|b bg IH]; intros bg' ss; cbn [initSrcA].
  - intros X. injection X as <- <-. repeat split. intros [|e]; discriminate.
  - destruct (srcMats _ _ _ _ _ _ _ _ _) as [[[lE mE] s]|] eqn:E; [|discriminate]. cbn [bind]. destruct (initSrcA solve d n fc fr bg) as [[bg1 ss1]|] eqn:E1; [|discriminate]. cbn [bind]. intros X. injection X as <- <-.
    destruct (IH _ _ eq_refl) as (L1 & L2 & H). cbn [length]. rewrite L1, L2. split; [reflexivity|]. split; [reflexivity|]. intros [|e] b0 Hb; [|exact (H e b0 Hb)]. injection Hb as <-. eexists _, _. cbn [nth_error bQp bQs bLam bMu]. repeat split. exact E.
Qed.

(** *** Refuted claims *)

(** Materials with lambda = 0 and equal quality factors: the set-up divides by zero. *)
Theorem C94_zero_lambda_refuted solve d n fc fr q muP : (1 <= n)%nat -> 0 < fc -> 0 < fr -> exists e, srcMats solve d n fc fr q q 0 muP = Er e.
Proof.
  intros Hn Hc Hr. destruct (srcMats solve d n fc fr q q 0 muP) as [[[lE mE] s]|e] eqn:E; [|now exists e].
  destruct (srcMats_inv solve d n fc fr q q 0 muP Hn Hc Hr lE mE s E) as (_ & _ & L & _ & _ & E1 & E2 & _). exfalso. apply L.
  match type of E2 with mE = muP * ?x => set (X := x) in * end. replace (0 + 2 * muP) with (2 * muP) in E1 by ring. nra.
Qed.

(** one mechanism at the central frequency 1 / (2 pi), quality factors one *)
Lemma one_run solve d lamP muP : lamP <> 0 -> (forall a b, length a = 1%nat -> length b = 1%nat -> leastSquares 1 1 a b (solve 1%nat 1%nat a b)) ->
  let g := sqrt (1 / 2) + 1 / 2 in srcMats solve d 1 (/ (2 * PI)) 1 1 1 lamP muP = Ok (lamP * g, muP * g, [srcDense 0 d (- (lamP + 2 * muP) * g) (- (2 * muP) * g) (- lamP * g)]).
Proof.
  intros Hl C g. pose proof PI_RGT_0 as P0. assert (F : frequencies 1 (/ (2 * PI)) 1 = [1]) by (unfold frequencies; cbn [seq map Nat.mul Nat.sub Nat.add]; rewrite sqrt_1; f_equal; field; lra).
  assert (S0 : 0 < sqrt (1 / 2)) by (apply sqrt_lt_R0; lra). assert (S1 : sqrt (1 / 2) * sqrt (1 / 2) = 1 / 2) by (apply sqrt_sqrt; lra). assert (G0 : 0 < g) by (unfold g; lra).
  assert (Y : solve 1%nat 1%nat (fitMat 1 (1 / 1) [1]) (fitRhs 1 (1 / 1)) = [1]).
  { destruct (C (fitMat 1 (1 / 1) [1]) (fitRhs 1 (1 / 1)) eq_refl eq_refl) as (L & M). destruct (solve _ _ _ _) as [|y [|? ?]]; try discriminate. f_equal. specialize (M [1] eq_refl).
    unfold sumSq, residual, sum, fitMat, fitRhs in M. cbn in M. assert (E : (1 * 1 + 1 * 1 * (1 / 1)) / (1 * 1 + 1 * 1) = 1) by field. rewrite E in M. replace (1 / 1) with 1 in M by field. nra. }
  unfold srcMats, anelasticCoeffLame, anelasticCoeffPs. cbn [Nat.eqb Nat.ltb Nat.leb check bind]. unfold quo at 1 2. destruct (Req_EM_T 1 0); [lra|]. cbn [bind].
  rewrite F. change (2 * 1 - 1)%nat with 1%nat. rewrite Y. cbn [bind]. unfold elasticLame. cbn [seq fold_left nth Nat.mul].
  replace (2 * PI * / (2 * PI) / 1) with 1 by (field; lra). replace (1 - 1 * (1 / (1 + 1 * 1))) with (1 / 2) by field. replace (0 + 1 * 1 * (1 / (1 + 1 * 1))) with (1 / 2) by field.
  replace (1 / 2 * (1 / 2) + 1 / 2 * (1 / 2)) with (1 / 2) by field. replace (2 * sqrt (1 / 2) * sqrt (1 / 2)) with 1 by lra. fold g.
  unfold quo at 1. destruct (Req_EM_T 1 0); [lra|]. cbn [bind]. unfold quo at 1. destruct (Req_EM_T 1 0); [lra|]. cbn [bind].
  replace ((lamP + 2 * muP) * (g / 1) - 2 * (muP * g / 1)) with (lamP * g) by field. replace (muP * g / 1) with (muP * g) by field.
  unfold quo. destruct (Req_EM_T (lamP * g) 0) as [Z|_]; [exfalso; apply Rmult_integral in Z; destruct Z; [contradiction|lra]|]. cbn [bind map seq nth]. f_equal. f_equal. f_equal. f_equal; field; split; lra.
Qed.

(** What a partition sends to its neighbours are the given parameters, while its own flux solvers use the elastic ones: neighbouring partitions disagree about the material
    next to their common faces. *)
Theorem C94_partition_refuted solve d : (forall a b, length a = 1%nat -> length b = 1%nat -> leastSquares 1 1 a b (solve 1%nat 1%nat a b)) ->
  exists fc fr b, 0 < fc /\ 0 < fr /\ 0 < bLam b /\ 0 < bMu b /\ 0 < bQp b /\ 0 < bQs b /\
  exists sent own, exchange solve d 1 fc fr [b] [0%nat] = Ok ([sent], [own]) /\ sent = b /\ bLam sent < bLam own /\ bMu sent < bMu own.
Proof.
  intros C. pose proof PI_RGT_0. exists (/ (2 * PI)), 1, {| bLam := 1; bMu := 1; bQp := 1; bQs := 1 |}. cbn [bLam bMu bQp bQs]. split; [apply Rinv_0_lt_compat; lra|]. do 5 (split; [lra|]).
  unfold exchange. cbn [fold_right bind rd nth_error initSrcA bLam bMu bQp bQs]. rewrite (one_run solve d 1 1) by (auto; lra). cbn [bind].
  eexists _, _. split; [reflexivity|]. split; [reflexivity|]. cbn [bLam bMu]. assert (1 / 2 < sqrt (1 / 2)); [|lra]. rewrite <- (sqrt_square (1 / 2)) at 1 by lra. apply sqrt_lt_1; lra.
Qed.

(** *** The hypotheses are met *)

(** the contract of the solver is met for all sizes by a concrete one *)
Example C94_solver_ex n : forall a b, length a = ((2 * n - 1) * n)%nat -> length b = (2 * n - 1)%nat -> leastSquares (2 * n - 1) n a b (LeastSq.lsSolve (2 * n - 1) n a b).
Proof. intros. apply LeastSq.lsSolve_ok. Qed.
(** the set-up succeeds, compressional and shear waves exist at the central frequency and travel with the given velocities, and they are solutions of the equations *)
Example C94_ex : exists lamE muE s z kP kS,
  srcMats LeastSq.lsSolve 3 1 (/ (2 * PI)) 1 1 1 1 1 = Ok (lamE, muE, s) /\ 1 < lamE /\ 1 < muE /\
  let m := {| rho := 1; lam := lamE; mu := muE |} in let src := fun l => nth l s [] in let w := 2 * PI * / (2 * PI) in let wl := fun l => nth (l * 2) (frequencies 1 (/ (2 * PI)) 1) 0 in
  remembers 1 w wl z /\ waveNumber 1 w (modP 1 m src z) kP /\ waveNumber 1 w (modS 3 1 m src z) kS /\ w / fst kP = speedP {| rho := 1; lam := 1; mu := 1 |} /\ w / fst kS = speedS {| rho := 1; lam := 1; mu := 1 |} /\
  (exists q ze, viscoelastic 3 1 m wl src q ze /\ forall i x t, (i < 3)%nat -> q (6 + i)%nat x t = planeWave 3 (fun i => if (i =? 0)%nat then 1 else 0) w kP (creal (if (i =? 0)%nat then 1 else 0)) x t).
Proof.
  pose proof PI_RGT_0 as P0. assert (S0 : 1 / 2 < sqrt (1 / 2)) by (rewrite <- (sqrt_square (1 / 2)) at 1 by lra; apply sqrt_lt_1; lra).
  assert (I0 : 0 < / (2 * PI)) by (apply Rinv_0_lt_compat; lra). assert (W0 : 0 < 2 * PI * / (2 * PI)) by (apply Rmult_lt_0_compat; lra).
  pose proof (one_run LeastSq.lsSolve 3 1 1 ltac:(lra) (fun a b _ _ => LeastSq.lsSolve_ok 1 1 a b)) as E. cbv zeta in E.
  match type of E with _ = Ok (?l, ?m, ?x) => set (lamE := l) in *; set (muE := m) in *; set (s := x) in * end. assert (M1 : 1 < muE) by (unfold muE; lra). assert (L1 : 1 < lamE) by exact M1.
  assert (X : exists z, remembers 1 (2 * PI * / (2 * PI)) (fun l => nth (l * 2) (frequencies 1 (/ (2 * PI)) 1) 0) z).
  { eexists. apply remembers_ex. intros l Hl. apply freqs_pos; auto; try lia; lra. }
  destruct X as (z & Hz).
  destruct (C94_waves_exist LeastSq.lsSolve 3 1 (/ (2 * PI)) 1 1 1 1 1 1 lamE muE s ltac:(auto) ltac:(auto) I0 ltac:(lra) E z ltac:(lra) Hz) as (HP & HS).
  destruct (HP ltac:(lra) ltac:(lra)) as (kP & KP & WP). destruct (HS ltac:(lra) ltac:(lra)) as (kS & KS & WS).
  exists lamE, muE, s, z, kP, kS. split; [exact E|]. split; [exact L1|]. split; [exact M1|]. cbv zeta. split; [exact Hz|]. split; [exact WP|]. split; [exact WS|]. split; [|split].
  - apply (C94_phase_velocity_P LeastSq.lsSolve 3 1 (/ (2 * PI)) 1 1 1 1 1 1 lamE muE s ltac:(auto) ltac:(auto) I0 ltac:(lra) E z kP); auto; lra.
  - apply (C94_phase_velocity_S LeastSq.lsSolve 3 1 (/ (2 * PI)) 1 1 1 1 1 1 lamE muE s ltac:(auto) ltac:(auto) I0 ltac:(lra) E z kS); auto; lra.
  - apply (C94_plane_wave_P LeastSq.lsSolve 3 1 (/ (2 * PI)) 1 1 1 1 1 1 lamE muE s ltac:(auto) ltac:(auto) I0 ltac:(lra) E _ z kP); auto; try lra. unfold dot, sum. cbn. ring.
Qed.

Print Assumptions C94_frequencies.
Print Assumptions C94_one_mechanism.
Print Assumptions C94_one_mechanism_centre_refuted.
Print Assumptions C94_kernel_frequencies.
Print Assumptions C94_phase_velocity_P.
Print Assumptions C94_phase_velocity_S.
Print Assumptions C94_waves_exist.
Print Assumptions C94_quality_P.
Print Assumptions C94_quality_S.
Print Assumptions C94_quality_one.
Print Assumptions C94_plane_wave_P.
Print Assumptions C94_plane_wave_S.
Print Assumptions C94_all_elements.
Print Assumptions C94_zero_lambda_refuted.
Print Assumptions C94_partition_refuted.
