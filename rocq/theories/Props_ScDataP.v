(** C106: threads which initialize the limiter's memory. *)
From Verif Require Import Util ScData ScDataSpec.
From Coq Require Import List Arith Lia Permutation.

(** writes of [v] to the addresses [l], one after the other *)
Fixpoint writes {B} (v : B) (l : list nat) (m : list B) : res (list B) := match l with [] => Ok m | i :: l => m <- wr m i v ;; writes v l m end.
(** [run] writes [v] to different addresses, and in every order, thus for every schedule of the threads, sets all of the [n] entries *)
Definition anyOrder {B} (v : B) (n : nat) (run : list B -> res (list B)) : Prop := exists A, NoDup A /\ (forall m, run m = writes v A m) /\
  forall l m, Permutation l A -> length m = n -> exists m', writes v l m = Ok m' /\ length m' = n /\ allAre v m'.

Lemma writes_app {B} (v : B) a : forall b m, writes v (a ++ b) m = (m <- writes v a m ;; writes v b m).
Proof. induction a as [|i a IH]; intros b m; cbn; [reflexivity|]. destruct (wr m i v); cbn; auto. Qed.
Lemma for_writes {B} (v : B) N f body m : (forall i m, body i m = writes v (f i) m) -> for_ 0 N body m = writes v (flat_map f (seq 0 N)) m.
Proof.
  intros H. unfold for_. rewrite Nat.sub_0_r. generalize 0 as i. revert m. induction N as [|N IH]; intros m i; cbn [for_n seq flat_map]; [reflexivity|].
  rewrite writes_app, H. destruct (writes v (f i) m); cbn [bind]; auto.
Qed.
Lemma flat_seq b w N f : (forall i, f i = seq (b + i * w) w) -> flat_map f (seq 0 N) = seq b (N * w).
Proof.
  intros H. assert (G : forall i, flat_map f (seq i N) = seq (b + i * w) (N * w)); [|rewrite G; f_equal; lia].
  induction N as [|N IH]; intros i; cbn [seq flat_map Nat.mul]; [reflexivity|]. rewrite IH, H, seq_app. f_equal. f_equal. lia.
Qed.
Lemma map_single f N b : (forall i, f i = b + i) -> flat_map (fun i => [f i]) (seq 0 N) = seq b N.
Proof. intros H. replace N with (N * 1) at 2 by lia. apply flat_seq. intros i. cbn. f_equal. rewrite H. lia. Qed.
Lemma row_writes {B} (v : B) N f b m : (forall i, f i = b + i) -> for_ 0 N (fun cr m => wr m (f cr) v) m = writes v (seq b N) m.
Proof. intros H. rewrite <- (map_single f N b H). apply for_writes. intros i m1. cbn. destruct (wr m1 (f i) v); reflexivity. Qed.
Lemma nest_writes {B} (v : B) N w b body m : (forall i m, body i m = writes v (seq (b + i * w) w) m) -> for_ 0 N body m = writes v (seq b (N * w)) m.
Proof. intros H. rewrite (for_writes v N (fun i => seq (b + i * w) w) body m H). f_equal. apply flat_seq. reflexivity. Qed.

Lemma writes_ok {B} (v : B) : forall l m, (forall i, In i l -> i < length m) -> exists m', writes v l m = Ok m' /\ length m' = length m /\
  forall j x, nth_error m' j = Some x -> (In j l \/ nth_error m j = Some v) -> x = v.
Proof.
  induction l as [|i l IH]; intros m H; cbn [writes]; [exists m; split; [reflexivity|]; split; [reflexivity|]; intros j x Hx [[]|Hj]; congruence|].
  assert (Hi : i < length m) by (apply H; now left). rewrite wr_ok by exact Hi. cbn [bind]. destruct (IH (upd m i v)) as (m' & E & L & F); [intros k Hk; rewrite length_upd; apply H; now right|]. rewrite length_upd in L.
  exists m'. split; [exact E|]. split; [exact L|]. intros j x Hx Hj. apply (F j x Hx). destruct (Nat.eq_dec i j) as [<-|N]; [right; now apply nth_error_upd_eq|]. destruct Hj as [[->|Hj]|Hj]; [contradiction|now left|]. right. now rewrite nth_error_upd_ne.
Qed.
Lemma any_ok {B} (v : B) n run : (forall m, run m = writes v (seq 0 n) m) -> anyOrder v n run.
Proof.
  intros H. exists (seq 0 n). split; [apply seq_NoDup|]. split; [exact H|]. intros l m P L. destruct (writes_ok v l m) as (m' & E & L' & F).
  - intros i Hi. apply (Permutation_in _ P) in Hi. apply in_seq in Hi. lia.
  - exists m'. split; [exact E|]. split; [lia|]. intros x Hx. apply In_nth_error in Hx. destruct Hx as (j & Hj). apply (F j x Hj). left. apply (Permutation_in _ (Permutation_sym P)). apply in_seq. assert (j < length m') by (apply nth_error_Some; congruence). lia.
Qed.

(** the loops over elements write to different addresses, and all entries are set for every order of the writes *)
Theorem C106_threads V (zero : V) nQt nSc nSf nFa nCr nLim nLimP nExt :
  anyOrder zero (nLim * (nQt * (nSc * nCr))) (for_ 0 nLim (resetDofs V zero nQt nSc nCr)) /\
  (forall B (v : B), anyOrder v (nLim * nCr) (for_ 0 nLim (resetRuns nCr v))) /\
  anyOrder zero (nLimP * (nFa * (nQt * (nSf * nCr)))) (resetBuf V zero nQt nSf nFa nCr nLimP) /\
  anyOrder zero (nExt * (2 * (nQt * nCr))) (resetExt V zero nQt nCr nExt).
Proof.
  split; [|split; [intros B v|split]]; apply any_ok; intros m.
  - apply nest_writes. intros li m1. unfold resetDofs. apply nest_writes. intros qt m2. apply nest_writes. intros sc m3. apply row_writes. intros cr. ring.
  - apply nest_writes. intros li m1. unfold resetRuns. apply row_writes. intros cr. ring.
  - unfold resetBuf. apply nest_writes. intros lp m1. apply nest_writes. intros fa m2. apply nest_writes. intros qt m3. apply nest_writes. intros sf m4. apply row_writes. intros cr. ring.
  - unfold resetExt. apply nest_writes. intros ex m1. apply nest_writes. intros e2 m2. apply nest_writes. intros qt m3. apply row_writes. intros cr. ring.
Qed.
Print Assumptions C106_threads.

(** non-vacuity: two elements with two runs, set by two threads in turn *)
Example C106_ex_threads : for_ 0 2 (resetRuns 2 true) (repeat false 4) = writes true [0; 1; 2; 3] (repeat false 4) /\ Permutation [0; 2; 1; 3] [0; 1; 2; 3] /\ writes true [0; 2; 1; 3] (repeat false 4) = Ok (repeat true 4).
Proof. split; [reflexivity|]. split; [|reflexivity]. constructor. apply perm_swap. Qed.
