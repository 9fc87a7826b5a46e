(** Proofs about EDGE-V's velocity models and mesh refinement (EvModels). *)
From Coq Require Import List Arith Bool Reals Lra Lia Permutation.
From Verif Require Import Util EvSpec EvModels.
Import ListNotations.
Open Scope R_scope.

Lemma pos_true a : 0 < a -> pos a = true.
Proof. intros. unfold pos. destruct (Rlt_dec 0 a); tauto. Qed.
Lemma ltR_true a b : a < b -> ltR a b = true.
Proof. intros. unfold ltR. destruct (Rlt_dec a b); tauto. Qed.
Lemma ltR_false a b : b <= a -> ltR a b = false.
Proof. intros. unfold ltR. destruct (Rlt_dec a b); [lra|reflexivity]. Qed.
Lemma nth_error_of {A} (l : list A) i d : (i < length l)%nat -> nth_error l i = Some (nth i l d).
Proof. intros. now apply nth_error_nth'. Qed.

(** *** threads *)
Section Threads.
Context {E O : Type}.
Variables (load : nat -> E -> res E) (expr : E -> E) (out : E -> res O) (n : nat) (o : nat -> O) (d : O).
(** the result of an iteration does not depend on what is left in the variables *)
Hypothesis Ho : forall i e, (i < n)%nat -> exists e', load i e = Ok e' /\ out (expr e') = Ok (o i).
Lemma thread_ok is : forall e acc, Forall (fun i => (i < n)%nat) is -> length acc = n -> exists acc', thread load expr out e is acc = Ok acc' /\ length acc' = n /\
  forall j, (j < n)%nat -> nth j acc' d = if in_dec Nat.eq_dec j is then o j else nth j acc d.
Proof.
  induction is as [|i is IH]; intros e acc Hi L; cbn [thread].
  - exists acc. split; [reflexivity|]. split; [exact L|]. intros j Hj. destruct (in_dec _ j []) as [[]|]. reflexivity.
  - inversion Hi as [|? ? H1 H2]; subst. destruct (Ho i e H1) as (e' & E1 & E2). rewrite E1. cbn [bind]. cbv zeta. rewrite E2. cbn [bind]. rewrite wr_ok by lia. cbn [bind].
    destruct (IH (expr e') (upd acc i (o i)) H2) as (acc' & E3 & L3 & H3); [now rewrite length_upd|]. exists acc'. split; [exact E3|]. split; [exact L3|]. intros j Hj. rewrite H3 by exact Hj.
    destruct (in_dec Nat.eq_dec j is) as [Hin|Hin], (in_dec Nat.eq_dec j (i :: is)) as [Hin'|Hin']; try reflexivity; try (exfalso; apply Hin'; now right).
    + destruct Hin' as [->|]; [|contradiction]. apply nth_upd_eq. lia.
    + apply nth_upd_ne. intros ->. apply Hin'. now left.
Qed.
Lemma threads_ok' e0 ts : forall acc, Forall (fun i => (i < n)%nat) (concat ts) -> length acc = n -> exists acc', threads load expr out e0 ts acc = Ok acc' /\ length acc' = n /\
  forall j, (j < n)%nat -> nth j acc' d = if in_dec Nat.eq_dec j (concat ts) then o j else nth j acc d.
Proof.
  induction ts as [|t ts IH]; intros acc Hi L; cbn [threads concat].
  - exists acc. split; [reflexivity|]. split; [exact L|]. intros j Hj. destruct (in_dec _ j []) as [[]|]. reflexivity.
  - cbn [concat] in Hi. apply Forall_app in Hi. destruct Hi as (H1 & H2). destruct (thread_ok t e0 acc H1 L) as (a1 & E1 & L1 & N1). rewrite E1. cbn [bind].
    destruct (IH a1 H2 L1) as (a2 & E2 & L2 & N2). exists a2. split; [exact E2|]. split; [exact L2|]. intros j Hj. rewrite N2, N1 by exact Hj.
    destruct (in_dec Nat.eq_dec j (concat ts)) as [Hin|Hin], (in_dec Nat.eq_dec j t) as [Hin'|Hin'], (in_dec Nat.eq_dec j (t ++ concat ts)) as [Hin2|Hin2]; try reflexivity; try (exfalso; apply Hin2, in_or_app; tauto).
    apply in_app_or in Hin2. tauto.
Qed.
Lemma threads_ok e0 ts acc : distribution n ts -> length acc = n -> threads load expr out e0 ts acc = Ok (map o (seq 0 n)).
Proof.
  intros D L. destruct (threads_ok' e0 ts acc) as (a & E1 & L1 & N1); [|exact L|].
  - apply Forall_forall. intros i Hi. apply (Permutation_in _ D) in Hi. apply in_seq in Hi. lia.
  - rewrite E1. f_equal. apply (nth_ext _ _ d d); [now rewrite map_length, seq_length|]. intros j Hj. rewrite L1 in Hj. rewrite N1 by exact Hj.
    destruct (in_dec Nat.eq_dec j (concat ts)) as [_|Hin].
    + rewrite (nth_indep _ d (o 0%nat)) by (rewrite map_length, seq_length; exact Hj). now rewrite (map_nth o), seq_nth.
    + exfalso. apply Hin. apply (Permutation_in _ (Permutation_sym D)). apply in_seq. lia.
Qed.
(** an iteration without result stops the program *)
Lemma thread_er is i : In i is -> (forall e, exists r, (e <- load i e;; out (expr e)) = Er r) -> forall e acc, exists r, thread load expr out e is acc = Er r.
Proof.
  intros Hin Hi. induction is as [|k is IH]; [contradiction|]. intros e acc. cbn [thread]. destruct Hin as [->|Hin].
  - destruct (Hi e) as (r & Er1). destruct (load i e) as [e'|r']; cbn [bind] in *; [|eauto]. rewrite Er1. cbn [bind]. eauto.
  - destruct (load k e) as [e'|r']; cbn [bind]; [|eauto]. cbv zeta. destruct (out (expr e')) as [x|]; cbn [bind]; [|eauto]. destruct (wr acc k x); cbn [bind]; [|eauto]. now apply IH.
Qed.
Lemma threads_er e0 ts i : In i (concat ts) -> (forall e, exists r, (e <- load i e;; out (expr e)) = Er r) -> forall acc, exists r, threads load expr out e0 ts acc = Er r.
Proof.
  intros Hin Hi. induction ts as [|t ts IH]; [contradiction|]. intros acc. cbn [threads concat] in *. apply in_app_or in Hin. destruct Hin as [Hin|Hin].
  - destruct (thread_er t i Hin Hi e0 acc) as (r & ->). cbn [bind]. eauto.
  - destruct (thread load expr out e0 t acc); cbn [bind]; [|eauto]. now apply IH.
Qed.
End Threads.

(** *** sums *)
Lemma total_app l l' : total (l ++ l') = total l + total l'.
Proof. unfold total. induction l as [|x l IH]; cbn [app fold_right]; [ring|rewrite IH; ring]. Qed.
Lemma total_map_S {A} (f : A -> R) g k : total (map f (map g (seq 0 (S k)))) = total (map f (map g (seq 0 k))) + f (g k).
Proof. rewrite seq_S, !map_app, total_app. cbn. ring. Qed.

(** *** refinement *)
Section Refinement.
Variables (bigD bigF junk : R) (nVes nEls nElVes : nat) (elVe : list nat) (veCrds : list pt) (minSpeed : list R).
Hypotheses (Hm : validMesh nVes nEls nElVes elVe) (Hc : length veCrds = nVes) (Hw : length minSpeed = nVes).
Definition crd (k : nat) (v : nat) : R := let '(x, y, z) := nth v veCrds (0, 0, 0) in match k with O => x | 1%nat => y | _ => z end.
Local Notation ves := (vesOf nElVes elVe).
Lemma ves_len el : length (ves el) = nElVes. Proof. unfold vesOf. now rewrite map_length, seq_length. Qed.
Lemma ves_rd el ve : (el < nEls)%nat -> (ve < nElVes)%nat -> rd elVe (el * nElVes + ve) = Ok (nth (el * nElVes + ve) elVe 0%nat) /\ (nth (el * nElVes + ve) elVe 0%nat < nVes)%nat.
Proof.
  clear Hc Hw. destruct Hm as (H0 & L & V). intros He Hv. assert ((el * nElVes + ve < length elVe)%nat) by (rewrite L; nia). split; [now apply rd_ok|]. apply V. now apply nth_In.
Qed.
Lemma ves_In el v : In v (ves el) <-> exists ve, (ve < nElVes)%nat /\ v = nth (el * nElVes + ve) elVe 0%nat.
Proof.
  clear Hm Hc Hw. unfold vesOf. rewrite in_map_iff. split.
  - intros (ve & <- & H). apply in_seq in H. exists ve. split; [lia|reflexivity].
  - intros (ve & H & ->). exists ve. split; [reflexivity|]. apply in_seq. lia.
Qed.
Lemma nElVes_pos : 0 < INR nElVes. Proof. apply (lt_INR 0). exact (proj1 Hm). Qed.

Lemma loadRef_ok el e lo hi : (el < nEls)%nat -> isMin (at_ minSpeed (ves el)) lo -> isMax (at_ minSpeed (ves el)) hi -> lo <> 0 -> lo <= bigD -> - bigD <= hi ->
  loadRef bigD nElVes elVe veCrds minSpeed el e = Ok {| rX := mean (map (crd 0) (ves el)); rY := mean (map (crd 1) (ves el)); rZ := mean (map (crd 2) (ves el)); rRatio := hi / lo; rEpw := rEpw e; rFreq := rFreq e |}.
Proof.
  intros He (M1 & M2) (X1 & X2) L0 LB HB. unfold loadRef. set (w k := nth (nth (el * nElVes + k) elVe 0%nat) minSpeed 0). set (g := fun ve => nth (el * nElVes + ve) elVe 0%nat).
  match goal with |- context [for_ 0 nElVes ?b ?s] => destruct (for_ok (fun k st => let '(x, y, z, mn, mx) := st in
    x = total (map (crd 0) (map g (seq 0 k))) / INR nElVes /\ y = total (map (crd 1) (map g (seq 0 k))) / INR nElVes /\ z = total (map (crd 2) (map g (seq 0 k))) / INR nElVes /\
    (mn <= bigD /\ (forall j, (j < k)%nat -> mn <= w j) /\ (mn = bigD \/ exists j, (j < k)%nat /\ mn = w j)) /\
    (- bigD <= mx /\ (forall j, (j < k)%nat -> w j <= mx) /\ (mx = - bigD \/ exists j, (j < k)%nat /\ mx = w j))) 0 nElVes b s) as (st & E & I) end.
  - lia.
  - cbn. pose proof nElVes_pos. repeat split; try (unfold Rdiv; ring); try lra; try lia; now left.
  - intros k [[[[x y] z] mn] mx] Hk (-> & -> & -> & (A1 & A2 & A3) & (B1 & B2 & B3)). destruct (ves_rd el k He) as (R1 & R2); [lia|]. rewrite R1. cbn [bind].
    rewrite (rd_ok veCrds _ (0, 0, 0)) by lia. cbn [bind]. destruct (nth _ veCrds _) as [[px py] pz] eqn:P. rewrite (rd_ok minSpeed _ 0) by lia. cbn [bind]. fold (w k). eexists. split; [reflexivity|].
    rewrite !total_map_S. assert (crd 0 (g k) = px /\ crd 1 (g k) = py /\ crd 2 (g k) = pz) as (-> & -> & ->) by (unfold crd, g; rewrite P; tauto). pose proof nElVes_pos. split; [field; lra|]. split; [field; lra|]. split; [field; lra|]. split.
    + split; [pose proof (Rmin_l mn (w k)); lra|]. split.
      * intros j Hj. destruct (Nat.eq_dec j k) as [->|]; [apply Rmin_r|]. eapply Rle_trans; [apply Rmin_l|apply A2; lia].
      * unfold Rmin. destruct (Rle_dec mn (w k)); [destruct A3 as [->|(j & Hj & ->)]; [now left|right; exists j; split; [lia|reflexivity]]|right; exists k; split; [lia|reflexivity]].
    + split; [pose proof (Rmax_l mx (w k)); lra|]. split.
      * intros j Hj. destruct (Nat.eq_dec j k) as [->|]; [apply Rmax_r|]. eapply Rle_trans; [apply B2; lia|apply Rmax_l].
      * unfold Rmax. destruct (Rle_dec mx (w k)); [right; exists k; split; [lia|reflexivity]|destruct B3 as [->|(j & Hj & ->)]; [now left|right; exists j; split; [lia|reflexivity]]].
  - rewrite E. cbn [bind]. destruct st as [[[[x y] z] mn] mx]. destruct I as (-> & -> & -> & (A1 & A2 & A3) & (B1 & B2 & B3)).
    assert (W : forall j, (j < nElVes)%nat -> In (w j) (at_ minSpeed (ves el))) by (intros j Hj; unfold at_; apply in_map_iff; exists (g j); split; [reflexivity|]; apply in_map, in_seq; lia).
    assert (W' : forall x, In x (at_ minSpeed (ves el)) -> exists j, (j < nElVes)%nat /\ x = w j).
    { intros x Hx. unfold at_ in Hx. apply in_map_iff in Hx. destruct Hx as (v & <- & Hv). apply ves_In in Hv. destruct Hv as (ve & Hve & ->). now exists ve. }
    assert (mn = lo) as ->.
    { destruct (W' lo M1) as (j & Hj & Ej). pose proof (A2 j Hj). destruct A3 as [->|(i & Hi & ->)]; [lra|]. pose proof (M2 (w i) (W i Hi)). lra. }
    assert (mx = hi) as ->.
    { destruct (W' hi X1) as (j & Hj & Ej). pose proof (B2 j Hj). destruct B3 as [->|(i & Hi & ->)]; [lra|]. pose proof (X2 (w i) (W i Hi)). lra. }
    destruct (Req_EM_T lo 0); [contradiction|]. unfold mean. rewrite !map_length, ves_len. reflexivity.
Qed.

(** least of the targets of the elements of a vertex *)
Definition least (es : list nat) (r : nat -> R) (v : nat) (x : R) : Prop :=
  x <= bigF /\ (forall el, In el es -> In v (ves el) -> x <= nth v minSpeed 0 * r el) /\ (x = bigF \/ exists el, In el es /\ In v (ves el) /\ x = nth v minSpeed 0 * r el).
Lemma propagate_ok (r : nat -> R) refEl : length refEl = nEls -> (forall el, (el < nEls)%nat -> nth el refEl 0 = r el) ->
  exists refVe refEl', propagate bigF nVes nEls nElVes elVe minSpeed refEl = Ok (refVe, refEl') /\ length refVe = nVes /\ length refEl' = nEls /\
  (forall v, (v < nVes)%nat -> least (seq 0 nEls) r v (nth v refVe 0)) /\
  (forall el, (el < nEls)%nat -> nth el refEl' 0 = mean (at_ minSpeed (ves el)) * r el).
Proof.
  clear Hc. intros L Hr. unfold propagate. pose proof nElVes_pos as NP.
  match goal with |- context [for_ 0 nEls ?b ?s] => destruct (for_ok (fun k st => let '(refVe, refEl) := st in length refVe = nVes /\ length refEl = nEls /\
    (forall v, (v < nVes)%nat -> least (seq 0 k) r v (nth v refVe 0)) /\
    (forall el, (el < nEls)%nat -> nth el refEl 0 = if (el <? k)%nat then mean (at_ minSpeed (ves el)) * r el else r el)) 0 nEls b s) as ([refVe refEl'] & E & A1 & A2 & A3 & A4) end.
  - lia.
  - split; [apply repeat_length|]. split; [exact L|]. split; [|intros el Hel; cbn; now apply Hr]. intros v Hv. assert (nth v (repeat bigF nVes) 0 = bigF) as -> by (apply (repeat_spec nVes bigF), nth_In; now rewrite repeat_length). split; [lra|]. split; [intros el []|now left].
  - intros k [refVe re] Hk (A1 & A2 & A3 & A4). rewrite (rd_ok re k 0) by lia. cbn [bind]. rewrite A4 by lia. replace (k <? k)%nat with false by (symmetry; apply Nat.ltb_irrefl). set (g := fun ve => nth (k * nElVes + ve) elVe 0%nat).
    match goal with |- context [for_ 0 nElVes ?b ?s] => destruct (for_ok (fun j st => let '(ave, rv) := st in length rv = nVes /\ ave = total (map (fun v => nth v minSpeed 0) (map g (seq 0 j))) /\
      forall v, (v < nVes)%nat -> nth v rv 0 <= nth v refVe 0 /\ (In v (map g (seq 0 j)) -> nth v rv 0 <= nth v minSpeed 0 * r k) /\ (nth v rv 0 = nth v refVe 0 \/ In v (map g (seq 0 j)) /\ nth v rv 0 = nth v minSpeed 0 * r k)) 0 nElVes b s) as ([ave rv] & E & B1 & B2 & B3) end.
    + lia.
    + split; [exact A1|]. split; [reflexivity|]. intros v Hv. split; [lra|]. split; [intros []|now left].
    + intros j [ave rv] Hj (B1 & -> & B3). destruct (ves_rd k j) as (R1 & R2); [lia|lia|]. rewrite R1. cbn [bind]. fold (g j) in R2 |- *. rewrite (rd_ok minSpeed _ 0) by lia. cbn [bind]. rewrite (rd_ok rv _ 0) by lia. cbn [bind]. rewrite wr_ok by lia. cbn [bind].
      eexists. split; [reflexivity|]. split; [now rewrite length_upd|]. split; [now rewrite total_map_S|]. intros v Hv. rewrite seq_S, map_app. cbn [plus map]. destruct (B3 v Hv) as (C1 & C2 & C3). destruct (Nat.eq_dec v (g j)) as [->|Hn].
      * rewrite nth_upd_eq by lia. split; [eapply Rle_trans; [apply Rmin_l|exact C1]|]. split; [intros _; apply Rmin_r|]. unfold Rmin. destruct (Rle_dec _ _); [destruct C3 as [C3|(C3 & C4)]; [now left|right; split; [apply in_or_app; now left|exact C4]]|right; split; [apply in_or_app; right; now left|reflexivity]].
      * rewrite nth_upd_ne by auto. split; [exact C1|]. split; [intros Hin; apply in_app_or in Hin; destruct Hin as [Hin|[Hin|[]]]; [now apply C2|now elim Hn]|]. destruct C3 as [C3|(C3 & C4)]; [now left|right; split; [apply in_or_app; now left|exact C4]].
    + rewrite E. cbn [bind]. rewrite wr_ok by lia. cbn [bind]. eexists. split; [reflexivity|]. split; [exact B1|]. split; [now rewrite length_upd|]. split.
      * intros v Hv. destruct (A3 v Hv) as (C1 & C2 & C3). destruct (B3 v Hv) as (D1 & D2 & D3). unfold least. rewrite seq_S. cbn [plus]. split; [lra|]. split.
        { intros el Hin Hvs. apply in_app_or in Hin. destruct Hin as [Hin|[<-|[]]]; [eapply Rle_trans; [exact D1|now apply C2]|now apply D2]. }
        destruct D3 as [->|(D3 & D4)].
        { destruct C3 as [C3|(el & F1 & F2 & F3)]; [now left|right; exists el; split; [apply in_or_app; now left|tauto]]. }
        { right. exists k. split; [apply in_or_app; right; now left|]. split; [exact D3|exact D4]. }
      * intros el Hel. destruct (Nat.eq_dec el k) as [->|Hn].
        { rewrite nth_upd_eq by lia. replace (k <? S k)%nat with true by (symmetry; apply Nat.ltb_lt; lia). unfold mean, at_. rewrite map_length, ves_len. rewrite B2. unfold vesOf. fold g. ring. }
        { rewrite nth_upd_ne by auto. rewrite A4 by exact Hel. destruct (Nat.ltb_spec el k), (Nat.ltb_spec el (S k)); try lia; reflexivity. }
  - exists refVe, refEl'. split; [exact E|]. split; [exact A1|]. split; [exact A2|]. split; [exact A3|]. intros el Hel. rewrite A4 by exact Hel. now replace (el <? nEls)%nat with true by (symmetry; apply Nat.ltb_lt; lia).
Qed.
End Refinement.

(** *** grids *)
Lemma lowerBound_lo l p i : (i < lowerBound l p)%nat -> nth i l 0 < p.
Proof.
  revert i. induction l as [|x l IH]; cbn [lowerBound]; intros i Hi; [lia|]. unfold ltR in Hi. destruct (Rlt_dec x p); [|lia]. destruct i as [|i]; [exact r|]. cbn. apply IH. lia.
Qed.
Lemma lowerBound_hi l p : (lowerBound l p < length l)%nat -> p <= nth (lowerBound l p) l 0.
Proof.
  induction l as [|x l IH]; cbn [lowerBound length]; [lia|]. unfold ltR. destruct (Rlt_dec x p); intros Hi; [cbn; apply IH; lia|cbn; lra].
Qed.
Lemma lowerBound_interval l p i : increasing l -> interval l p i -> lowerBound l p = i.
Proof.
  intros S (Hi & P1 & P2). destruct (Nat.lt_trichotomy (lowerBound l p) i) as [H|[H|H]]; [|exact H|].
  - pose proof (lowerBound_hi l p ltac:(lia)). destruct (Nat.eq_dec (lowerBound l p) (i - 1)) as [E|E]; [rewrite E in *; lra|]. pose proof (S (lowerBound l p) (i - 1)%nat ltac:(lia)). lra.
  - pose proof (lowerBound_lo l p i H). lra.
Qed.
Lemma interval_first l p i : increasing l -> interval l p i -> nth 0 l 0 < p.
Proof. intros S (Hi & P1 & P2). destruct (Nat.eq_dec i 1) as [->|]; [exact P1|]. pose proof (S 0%nat (i - 1)%nat ltac:(lia)). lra. Qed.

(** *** loops which stop with a failed check *)
Lemma for_n_check {S} (I : S -> Prop) (body : nat -> S -> res S) : forall n i s k, (i <= k < i + n)%nat -> I s ->
  (forall j s, I s -> (exists s', body j s = Ok s' /\ I s') \/ body j s = Er Echeck \/ (i + n <= j)%nat \/ (j < i)%nat) -> (forall s, I s -> body k s = Er Echeck) -> for_n n i body s = Er Echeck.
Proof.
  induction n as [|n IH]; intros i s k Hk Hs Hb Hf; [lia|]. cbn [for_n]. destruct (Nat.eq_dec k i) as [->|Hn]; [now rewrite Hf|].
  destruct (Hb i s Hs) as [(s' & -> & Hs')|[->|[?|?]]]; try lia; [|reflexivity]. cbn [bind]. apply (IH (Datatypes.S i) s' k); auto; [lia|].
  intros j t Ht. destruct (Hb j t Ht) as [H|[H|[H|H]]]; auto; right; right; [left; lia|right; lia].
Qed.
