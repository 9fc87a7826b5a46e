(** Proofs about the set-up loops of internal boundaries and about histories of the friction law. *)
From Coq Require Import List Arith Bool Lia Reals Lra Field.
From Verif Require Import Util MatMul ElGen Elastic ElSpec ElWave ElFlux ElTrafo ElMid ElMid2 ElFace Fault FaultSpec FaultMs FaultRot FaultFric FaultNet FaultSlip.
From Verif Require Import Props_FwaveR.
Import ListNotations.
Open Scope nat_scope.

(** ** Loops over faces of a sparse type *)
Section Loop.
Context {T A : Type} (spType : nat) (body : nat -> @ibFa T -> res A) (fas : list (@ibFa T)).
Notation sel := (filter (@hasSp T spType) fas).

Lemma filter_firstn k : forall l : list (@ibFa T), filter (hasSp spType) (firstn k l) = firstn (length (filter (hasSp spType) (firstn k l))) (filter (hasSp spType) l).
Proof.
  induction k as [|k IH]; intros [|x l]; cbn [firstn filter]; try reflexivity. destruct (hasSp spType x); [|apply IH]. cbn [length firstn]. f_equal. apply IH.
Qed.
Lemma filter_step k f : nth_error fas k = Some f -> hasSp spType f = true ->
  nth_error sel (length (filter (hasSp spType) (firstn k fas))) = Some f /\ length (filter (hasSp spType) (firstn (S k) fas)) = S (length (filter (hasSp spType) (firstn k fas))).
Proof.
  revert k. induction fas as [|x l IH]; intros [|k] E H; cbn in E; try discriminate.
  - injection E as ->. cbn [firstn filter length]. rewrite H. cbn. auto.
  - cbn [firstn filter]. destruct (IH k E H) as (I1 & I2). cbn [firstn filter] in I2. destruct (hasSp spType x); cbn [length nth_error]; auto.
Qed.
Lemma filter_skip k f : nth_error fas k = Some f -> hasSp spType f = false -> length (filter (hasSp spType) (firstn (S k) fas)) = length (filter (hasSp spType) (firstn k fas)).
Proof.
  revert k. induction fas as [|x l IH]; intros [|k] E H; cbn in E; try discriminate.
  - injection E as ->. cbn [firstn filter length]. rewrite H. reflexivity.
  - cbn [firstn filter]. specialize (IH k E H). cbn [firstn filter] in IH. destruct (hasSp spType x); cbn [length]; auto.
Qed.
Lemma filter_le k : length (filter (hasSp spType) (firstn k fas)) <= length sel.
Proof. rewrite filter_firstn, firstn_length. lia. Qed.

Definition loopInv (o : list A) (k : nat) (st : nat * list A) : Prop :=
  fst st = length (filter (hasSp spType) (firstn k fas)) /\ length (snd st) = length o /\
  (forall j f, j < fst st -> nth_error sel j = Some f -> exists a, body j f = Ok a /\ nth_error (snd st) j = Some a) /\
  (forall j, fst st <= j -> nth_error (snd st) j = nth_error o j).

Lemma loop_write o k f st a : nth_error fas k = Some f -> hasSp spType f = true -> loopInv o k st -> body (fst st) f = Ok a -> fst st < length o -> loopInv o (S k) (S (fst st), upd (snd st) (fst st) a).
Proof.
  intros E H (I1 & I2 & I3 & I4) B L. destruct (filter_step k f E H) as (S1 & S2). rewrite <- I1 in S1, S2. split; [cbn [fst]; congruence|]. cbn [fst snd]. split; [rewrite length_upd; assumption|]. split.
  - intros j g J Eg. destruct (Nat.eq_dec j (fst st)) as [->|X].
    + rewrite S1 in Eg. injection Eg as <-. exists a. split; [assumption|]. apply nth_error_upd_eq. lia.
    + rewrite nth_error_upd_ne by lia. apply I3; [lia|assumption].
  - intros j J. rewrite nth_error_upd_ne by lia. apply I4. lia.
Qed.

Lemma spLoop_total o : length sel <= length o -> (forall k f, nth_error sel k = Some f -> exists a, body k f = Ok a) -> exists o', spLoop spType body fas o = Ok o'.
Proof.
  intros L B. unfold spLoop.
  match goal with |- exists o', (_ <- for_ 0 _ ?bd _;; _) = _ => destruct (for_ok (loopInv o) 0 (length fas) bd (0, o)) as (st & -> & _) end; [lia| | |cbn [bind]; eauto].
  - split; [reflexivity|]. split; [reflexivity|]. cbn [fst snd]. split; [intros; lia|reflexivity].
  - intros k st Hk I. destruct (nth_error fas k) as [f|] eqn:E; [|apply nth_error_None in E; lia]. cbn [bind]. destruct (hasSp spType f) eqn:H.
    + destruct (filter_step k f E H) as (S1 & S2). pose proof I as (I1 & I2 & _). rewrite <- I1 in S1. destruct (B _ _ S1) as (a & Ea). rewrite Ea. cbn [bind].
      assert (X : fst st < length o). { assert (nth_error sel (fst st) <> None) by congruence. apply nth_error_Some in H0. lia. }
      rewrite wr_ok by lia. cbn [bind]. eexists. split; [reflexivity|]. now apply (loop_write o k f).
    + eexists. split; [reflexivity|]. destruct I as (I1 & I2 & I3 & I4). split; [rewrite (filter_skip k f E H); assumption|]. auto.
Qed.

Lemma spLoop_inv o o' : spLoop spType body fas o = Ok o' -> length o' = length o /\
  (forall k f, nth_error sel k = Some f -> exists a, body k f = Ok a /\ nth_error o' k = Some a) /\ (forall k, length sel <= k -> nth_error o' k = nth_error o k).
Proof.
  unfold spLoop. match goal with |- (_ <- for_ 0 _ ?bd _;; _) = _ -> _ => destruct (for_ 0 (length fas) bd (0, o)) as [st|] eqn:E end; cbn [bind]; [|discriminate]. intros H. injection H as <-.
  assert (I : loopInv o (length fas) st).
  { apply (for_inv (loopInv o) 0 (length fas) _ (0, o) st ltac:(lia) E).
    - split; [reflexivity|]. split; [reflexivity|]. cbn [fst snd]. split; [intros; lia|reflexivity].
    - intros k s s' Hk I. cbv beta. destruct (nth_error fas k) as [f|] eqn:En; [|discriminate]. cbn [bind]. destruct (hasSp spType f) eqn:H.
      + destruct (body (fst s) f) as [a|] eqn:Ea; cbn [bind]; [|discriminate]. destruct (wr (snd s) (fst s) a) as [o2|] eqn:Ew; cbn [bind]; [|discriminate]. intros X. injection X as <-.
        pose proof I as (I1 & I2 & _). unfold wr in Ew. destruct (fst s <? length (snd s)) eqn:Lt; [|discriminate]. injection Ew as <-. apply Nat.ltb_lt in Lt. apply (loop_write o k f); auto. lia.
      + intros X. injection X as <-. destruct I as (I1 & I2 & I3 & I4). split; [rewrite (filter_skip k f En H); assumption|]. auto. }
  destruct I as (I1 & I2 & I3 & I4). rewrite firstn_all in I1. split; [assumption|]. split.
  - intros k f Ef. apply I3; [|assumption]. assert (nth_error sel k <> None) by congruence. apply nth_error_Some in H. lia.
  - intros k K. apply I4. lia.
Qed.
End Loop.

(** ** Histories of the friction law *)
Open Scope R_scope.

Definition lswStep (dim3 : bool) (f : @lswFa R) (g : @lswGl R) (s : @lswSf R) (x : R * list R) : @lswSf R := snd (snd (perturbR dim3 (fst x) f g s (snd x))).
(** states of a sub-face after the time steps of a list of (time step, middle state) *)
Fixpoint history (step : @lswSf R -> R * list R -> @lswSf R) (s : @lswSf R) (l : list (R * list R)) : list (@lswSf R) :=
  match l with [] => [] | x :: l => let s' := step s x in s' :: history step s' l end.
(** sum of the products of absolute slip rates of a shear component and time steps *)
Fixpoint slipSum (c : nat) (l : list (R * list R)) (h : list (@lswSf R)) : R :=
  match l, h with x :: l, s :: h => Rabs (nth c (sSr s) 0) * fst x + slipSum c l h | _, _ => 0 end.

Definition nSh (dim3 : bool) : nat := if dim3 then 2%nat else 1%nat.
(** slip that enters the friction coefficient *)
Definition slipOf (dim3 : bool) (dd : nat -> R) : R := if dim3 then sqrt (dd 0%nat * dd 0%nat + dd 1%nat * dd 1%nat) else dd 0%nat.

Lemma maxOf_R a b : maxOf rltb a b = Rmax a b.
Proof. unfold maxOf, rltb, Rmax. destruct (Rlt_dec a b), (Rle_dec a b); try reflexivity; lra. Qed.

Lemma mufOf_R g dc dd : dc <> 0 -> gDcInv g = 1 / dc -> mufOf Rplus Rminus Rmult Ropp rltb g dd = weakened (gMus g) (gMud g) dc dd.
Proof. intros D E. unfold mufOf, weakened. rewrite maxOf_R, E. f_equal. field. assumption. Qed.

Lemma step_ok dim3 f g dc s x : dc <> 0 -> gDcInv g = 1 / dc -> let s' := lswStep dim3 f g s x in
  sSn0 s' = sSn0 s /\ sCo0 s' = sCo0 s /\ sSs0 s' = sSs0 s /\
  (forall c, (c < nSh dim3)%nat -> nth c (sDd s') 0 = nth c (sDd s) 0 + Rabs (nth c (sSr s') 0) * fst x) /\
  sMuf s' = weakened (gMus g) (gMud g) dc (slipOf dim3 (fun c => nth c (sDd s') 0)).
Proof.
  intros D E. unfold lswStep, perturbR, perturb. destruct dim3.
  - unfold linSlipWeak3. cbv zeta. rewrite !(mufOf_R g dc) by assumption. destruct (fLEqM f); cbn [fst snd sSn0 sCo0 sSs0 sDd sSr sMuf slipOf nth]; repeat (split; [reflexivity|]); split; try reflexivity;
    intros [|[|c]] Hc; cbn in Hc; try lia; cbn [nth]; rewrite fabsR; reflexivity.
  - unfold linSlipWeak2. cbv zeta. rewrite !(mufOf_R g dc) by assumption. destruct (fLEqM f); cbn [fst snd sSn0 sCo0 sSs0 sDd sSr sMuf slipOf nth]; repeat (split; [reflexivity|]); split; try reflexivity;
    intros [|c] Hc; cbn in Hc; try lia; cbn [nth]; rewrite fabsR; reflexivity.
Qed.

Lemma hist_len st : forall l s, length (history st s l) = length l.
Proof. induction l as [|x l IH]; intros s; cbn [history length]; [reflexivity|]. cbv zeta. cbn [length]. now rewrite IH. Qed.

Section History.
Variables (dim3 : bool) (f : @lswFa R) (g : @lswGl R) (dc : R).
Hypotheses (D : 0 < dc) (G : gDcInv g = 1 / dc).
Notation hist := (history (lswStep dim3 f g)).

Lemma hist_ok : forall l s k s', nth_error (hist s l) k = Some s' ->
  sSn0 s' = sSn0 s /\ sCo0 s' = sCo0 s /\ sSs0 s' = sSs0 s /\
  (forall c, (c < nSh dim3)%nat -> nth c (sDd s') 0 = nth c (sDd s) 0 + slipSum c (firstn (S k) l) (hist s l)) /\
  sMuf s' = weakened (gMus g) (gMud g) dc (slipOf dim3 (fun c => nth c (sDd s') 0)).
Proof.
  assert (D0 : dc <> 0) by lra.
  induction l as [|x l IH]; intros s k s' E; [destruct k; discriminate|]. cbn [history] in E |- *. cbv zeta in E |- *. destruct (step_ok dim3 f g dc s x D0 G) as (P1 & P2 & P3 & P4 & P5).
  destruct k as [|k]; cbn [nth_error] in E.
  - injection E as <-. repeat (split; [assumption|]). split; [|assumption]. intros c Hc. rewrite P4 by assumption. cbn [firstn slipSum]. ring.
  - destruct (IH _ _ _ E) as (Q1 & Q2 & Q3 & Q4 & Q5). repeat (split; [congruence|]). split; [|assumption]. intros c Hc. rewrite Q4, P4 by assumption.
    rewrite firstn_cons. cbn [slipSum]. ring.
Qed.

Lemma slipSum_pos c : forall l h, Forall (fun x => 0 <= fst x) l -> 0 <= slipSum c l h.
Proof.
  induction l as [|x l IH]; intros [|s h] F; cbn [slipSum]; try lra. inversion F as [|? ? H1 H2]; subst. specialize (IH h H2).
  pose proof (Rmult_le_pos _ _ (Rabs_pos (nth c (sSr s) 0)) H1). lra.
Qed.
Lemma slipSum_mono c : forall l h j k, Forall (fun x => 0 <= fst x) l -> (j <= k)%nat -> slipSum c (firstn j l) h <= slipSum c (firstn k l) h.
Proof.
  induction l as [|x l IH]; intros h j k F J; [rewrite !firstn_nil; lra|]. inversion F as [|? ? H1 H2]; subst. destruct j as [|j].
  - cbn [firstn]. change (slipSum c [] h) with 0. apply slipSum_pos. apply Forall_forall. intros y Hy. rewrite Forall_forall in F. apply F. rewrite <- (firstn_skipn k (x :: l)). apply in_or_app. now left.
  - destruct k as [|k]; [lia|]. cbn [firstn]. destruct h as [|s h]; cbn [slipSum]; [lra|]. specialize (IH h j k H2 ltac:(lia)). lra.
Qed.

Lemma slipOf_mono a b : (forall c, (c < nSh dim3)%nat -> 0 <= a c /\ a c <= b c) -> 0 <= slipOf dim3 a /\ slipOf dim3 a <= slipOf dim3 b.
Proof.
  intros H. unfold slipOf. destruct dim3.
  - split; [apply sqrt_pos|]. apply sqrt_le_1_alt. destruct (H 0%nat) as (A0 & B0); [cbn; lia|]. destruct (H 1%nat) as (A1 & B1); [cbn; lia|].
    pose proof (Rmult_le_compat (a 0%nat) (b 0%nat) (a 0%nat) (b 0%nat) A0 A0 B0 B0). pose proof (Rmult_le_compat (a 1%nat) (b 1%nat) (a 1%nat) (b 1%nat) A1 A1 B1 B1). lra.
  - apply (H 0%nat). cbn. lia.
Qed.
Lemma weakened_mono mus mud a b : mud <= mus -> 0 <= a -> a <= b -> weakened mus mud dc b <= weakened mus mud dc a /\ mud <= weakened mus mud dc a <= mus.
Proof.
  intros M A B. unfold weakened. assert (X : 0 <= (mus - mud) / dc) by (apply Rmult_le_pos; [lra|]; left; now apply Rinv_0_lt_compat).
  pose proof (Rmult_le_compat_l _ _ _ X B). pose proof (Rmult_le_pos _ _ X A). split; [|split].
  - apply Rmax_lub; [apply Rmax_l|]. eapply Rle_trans; [|apply Rmax_r]. lra.
  - apply Rmax_l.
  - apply Rmax_lub; lra.
Qed.
Lemma weakened_0 mus mud : mud <= mus -> weakened mus mud dc 0 = mus.
Proof. intros M. unfold weakened. rewrite Rmult_0_r, Rminus_0_r. now apply Rmax_right. Qed.
Lemma weakened_full mus mud a : mud <= mus -> dc <= a -> weakened mus mud dc a = mud.
Proof.
  intros M A. unfold weakened. apply Rmax_left. replace mud with (mus - (mus - mud) / dc * dc) at 2 by (field; lra). assert (X : 0 <= (mus - mud) / dc) by (apply Rmult_le_pos; [lra|]; left; now apply Rinv_0_lt_compat).
  pose proof (Rmult_le_compat_l _ _ _ X A). lra.
Qed.

Lemma hist_mono l s : Forall (fun x => 0 <= fst x) l -> gMud g <= gMus g -> (forall c, (c < nSh dim3)%nat -> nth c (sDd s) 0 = 0) ->
  (forall k s', nth_error (hist s l) k = Some s' -> gMud g <= sMuf s' <= gMus g) /\
  (forall j k sj sk, (j <= k)%nat -> nth_error (hist s l) j = Some sj -> nth_error (hist s l) k = Some sk -> sMuf sk <= sMuf sj).
Proof.
  intros F M Z. split.
  - intros k s' E. destruct (hist_ok l s k s' E) as (_ & _ & _ & Q4 & ->). assert (X : 0 <= slipOf dim3 (fun c => nth c (sDd s') 0)); [|apply (weakened_mono (gMus g) (gMud g) _ _ M X (Rle_refl _))].
    apply (slipOf_mono _ (fun c => nth c (sDd s') 0)). intros c Hc. split; [|lra]. rewrite Q4, Z by assumption. rewrite Rplus_0_l. apply slipSum_pos.
    apply Forall_forall. intros y Hy. rewrite Forall_forall in F. apply F. rewrite <- (firstn_skipn (S k) l). apply in_or_app. now left.
  - intros j k sj sk J Ej Ek. destruct (hist_ok l s j sj Ej) as (_ & _ & _ & Qj & ->). destruct (hist_ok l s k sk Ek) as (_ & _ & _ & Qk & ->).
    assert (X : forall c, (c < nSh dim3)%nat -> 0 <= nth c (sDd sj) 0 /\ nth c (sDd sj) 0 <= nth c (sDd sk) 0).
    { intros c Hc. rewrite Qj, Qk, Z by assumption. rewrite !Rplus_0_l. split; [|apply slipSum_mono; [assumption|lia]]. apply slipSum_pos.
      apply Forall_forall. intros y Hy. rewrite Forall_forall in F. apply F. rewrite <- (firstn_skipn (S j) l). apply in_or_app. now left. }
    destruct (slipOf_mono _ _ X) as (X1 & X2). now apply weakened_mono.
Qed.
End History.

(** ** Two-dimensional friction: sign of the traction *)
Lemma addJump_same n j v : length v = n -> addJump n j v v = v.
Proof.
  intros L. unfold addJump. apply nth_ext with 0 0; [rewrite map_length, seq_length; auto|]. intros i Hi. rewrite map_length, seq_length in Hi.
  rewrite (nth_indep _ 0 (nth 0 v 0 + nth 0 (mv n n j (map (fun i => nth i v 0 - nth i v 0) (seq 0 n))) 0)) by (rewrite map_length, seq_length; assumption).
  rewrite (map_nth (fun i => nth i v 0 + nth i (mv n n j (map (fun i => nth i v 0 - nth i v 0) (seq 0 n))) 0)). rewrite seq_nth by assumption. cbn [plus].
  rewrite nth_mv by assumption. rewrite (sum_ext _ _ (fun _ => 0 * 0)).
  - rewrite (sum_scal n 0 (fun _ => 0)). rewrite Rmult_0_l. apply Rplus_0_r.
  - intros k Hk. replace (nth k (map (fun i => nth i v 0 - nth i v 0) (seq 0 n)) 0) with 0; [ring|].
    rewrite (nth_indep _ 0 (nth 0 v 0 - nth 0 v 0)) by (rewrite map_length, seq_length; assumption). rewrite (map_nth (fun i => nth i v 0 - nth i v 0)). ring.
Qed.
