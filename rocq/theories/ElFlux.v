(** Proofs about the flux solvers of the seismic waves, over the real numbers. *)
From Coq Require Import List Arith Bool Lia Reals Lra Field.
From Verif Require Import Util MatMul MatSparse ElGen Elastic ElSpec ElWave Props_FwaveR Props_Mat.
Import ListNotations.
Open Scope R_scope.

(** ** Products of matrices *)
Lemma sum_fold n f : sum n f = fold_left (fun a i => a + f i) (seq 0 n) 0.
Proof. reflexivity. Qed.
Lemma nth_mv m n a q i : (i < m)%nat -> nth i (mv m n a q) 0 = sum n (fun j => nth (i * n + j) a 0 * nth j q 0).
Proof.
  intros H. unfold mv. rewrite (nth_indep _ 0 (sum n (fun j => nth (0 * n + j) a 0 * nth j q 0))) by (rewrite map_length, seq_length; auto).
  rewrite (map_nth (fun i => sum n (fun j => nth (i * n + j) a 0 * nth j q 0)) (seq 0 m) 0%nat i). rewrite seq_nth by auto. reflexivity.
Qed.
Lemma len_mv m n a q : length (mv m n a q) = m.
Proof. unfold mv. rewrite map_length, seq_length. reflexivity. Qed.

Lemma mv_mul m n k a b c : length c = (m * n)%nat -> length a = (m * k)%nat -> length b = (k * n)%nat ->
  exists p, matMulB0 Rplus Rmult 0 m n k a b c = Ok p /\ length p = (m * n)%nat /\ forall q, mv m n p q = mv m k a (mv k n b q).
Proof.
  intros C A B. destruct (C37_matmul Rplus Rmult 0 (fun _ => false) 0 m n k a b c C A B) as (p & E & L & V). exists p. split; [auto|]. split; [auto|]. intros q.
  apply nth_ext with 0 0; [rewrite !len_mv; auto|]. rewrite len_mv. intros i Hi. rewrite !nth_mv by auto.
  transitivity (sum n (fun j => sum k (fun l => nth (i * k + l) a 0 * nth (l * n + j) b 0 * nth j q 0))).
  - apply sum_ext. intros j Hj. rewrite V by auto. rewrite <- (sum_fold k (fun l => nth (i * k + l) a 0 * nth (l * n + j) b 0)). rewrite Rmult_comm, <- sum_scal. apply sum_ext. intros. ring.
  - rewrite sum_swap. apply sum_ext. intros l Hl. rewrite nth_mv by auto. rewrite <- sum_scal. apply sum_ext. intros. ring.
Qed.

(** the entries [cs] of a vector are negated *)
Definition mirror (cs : list nat) (q : list R) : list R := map (fun i => if existsb (Nat.eqb i) cs then - nth i q 0 else nth i q 0) (seq 0 (length q)).
Lemma nth_mirror cs q i : nth i (mirror cs q) 0 = if existsb (Nat.eqb i) cs then - nth i q 0 else nth i q 0.
Proof.
  unfold mirror. destruct (Nat.lt_ge_cases i (length q)) as [H|H].
  - rewrite (nth_indep _ 0 (if existsb (Nat.eqb 0) cs then - nth 0 q 0 else nth 0 q 0)) by (rewrite map_length, seq_length; auto).
    rewrite (map_nth (fun i => if existsb (Nat.eqb i) cs then - nth i q 0 else nth i q 0) (seq 0 (length q)) 0%nat i). rewrite seq_nth by auto. reflexivity.
  - rewrite !nth_overflow by (rewrite ?map_length, ?seq_length; auto). destruct (existsb _ _); lra.
Qed.

Notation mirrorColsR := (mirrorCols 1 Rmult Ropp).

(** one row *)
Lemma mirror_row n ro cs a : NoDup cs -> (forall c, In c cs -> (c < n)%nat) -> ((ro + 1) * n <= length a)%nat ->
  exists b, fold_left (fun r c => a <- r;; x <- rd a (ro * n + c);; wr a (ro * n + c) (x * - (1))) cs (Ok a) = Ok b /\ length b = length a /\
    forall i, nth i b 0 = if existsb (fun c => (i =? ro * n + c)%nat) cs then - nth i a 0 else nth i a 0.
Proof.
  intros ND BD LE. revert a LE. induction cs as [|c cs IH]; intros a LE; cbn [fold_left]; [exists a; auto|].
  inversion ND as [|? ? NI ND']; subst. assert (Hc : (c < n)%nat) by (apply BD; left; auto).
  assert (Hp : (ro * n + c < length a)%nat) by nia. cbn [bind]. rewrite (rd_ok a _ 0) by auto. cbn [bind]. rewrite wr_ok by auto.
  destruct (IH ND' (fun c H => BD c (or_intror H)) (upd a (ro * n + c) (nth (ro * n + c) a 0 * - (1)))) as (b & E & L & V); [rewrite length_upd; auto|].
  exists b. split; [exact E|]. split; [rewrite L, length_upd; auto|]. intros i. rewrite V. cbn [existsb].
  destruct (Nat.eqb_spec i (ro * n + c)) as [->|N].
  - rewrite nth_upd_eq by auto. cbn [orb]. destruct (existsb _ cs) eqn:X; [|ring]. apply existsb_exists in X. destruct X as (c' & I & X). apply Nat.eqb_eq in X. assert (c = c') by lia. subst. contradiction.
  - rewrite nth_upd_ne by auto. reflexivity.
Qed.

Lemma mirror_ok m n cs a : NoDup cs -> (forall c, In c cs -> (c < n)%nat) -> length a = (m * n)%nat ->
  exists b, mirrorColsR m n cs a = Ok b /\ length b = (m * n)%nat /\ forall q, length q = n -> mv m n b q = mv m n a (mirror cs q).
Proof.
  intros ND BD LA. unfold mirrorCols.
  destruct (for_ok (fun k b => length b = length a /\ forall x y, (x < m)%nat -> (y < n)%nat -> nth (x * n + y) b 0 = if ((x <? k)%nat && existsb (Nat.eqb y) cs)%bool then - nth (x * n + y) a 0 else nth (x * n + y) a 0)
    0 m (fun ro a => fold_left (fun r c => a <- r;; x <- rd a (ro * n + c);; wr a (ro * n + c) (x * - (1))) cs (Ok a)) a) as (b & E & L & V); [lia|split; auto| |].
  { intros k b Hk (L & V). destruct (mirror_row n k cs b ND BD) as (b' & E' & L' & V'); [rewrite L, LA; nia|]. exists b'. split; [exact E'|]. split; [lia|]. intros x y Hx Hy. rewrite V', V by auto.
    destruct (Nat.eq_dec x k) as [->|N].
    - assert (X : existsb (fun c => (k * n + y =? k * n + c)%nat) cs = existsb (Nat.eqb y) cs) by (clear; induction cs as [|c cs IH]; [reflexivity|]; cbn; rewrite IH; f_equal; destruct (Nat.eqb_spec (k * n + y) (k * n + c)), (Nat.eqb_spec y c); lia || reflexivity).
      rewrite X. destruct (Nat.ltb_spec k k); [lia|]. destruct (Nat.ltb_spec k (S k)); [|lia]. cbn [andb]. reflexivity.
    - assert (X : existsb (fun c => (x * n + y =? k * n + c)%nat) cs = false).
      { destruct (existsb _ cs) eqn:X; [|reflexivity]. apply existsb_exists in X. destruct X as (c & I & X). apply Nat.eqb_eq in X. assert (Hc := BD c I). exfalso. apply N. nia. }
      rewrite X. destruct (Nat.ltb_spec x k), (Nat.ltb_spec x (S k)); try lia; reflexivity. }
  exists b. split; [exact E|]. split; [lia|]. intros q Lq. apply nth_ext with 0 0; [rewrite !len_mv; auto|]. rewrite len_mv. intros i Hi.
  rewrite !nth_mv by auto. apply sum_ext. intros j Hj. rewrite V by auto. rewrite nth_mirror. destruct (Nat.ltb_spec i m); [|lia]. cbn [andb]. destruct (existsb _ _); ring.
Qed.

(** ** The solvers as linear maps *)
Notation fsOfR := (fsOf 0 1 Rplus Rmult Ropp).
Lemma fsOf_ok m n cs t tm1 ml mr fr : NoDup cs -> (forall c, In c cs -> (c < n)%nat) -> length t = (m * m)%nat -> length tm1 = (n * n)%nat -> length ml = (m * n)%nat -> length mr = (m * n)%nat ->
  exists fl frr, fsOfR m n cs t tm1 ml mr fr = Ok (fl, frr) /\ length fl = (m * n)%nat /\ length frr = (m * n)%nat /\
    forall q, mv m n fl q = mv m m t (mv m n ml (mv n n tm1 q)) /\ mv m n frr q = mv m m t (mv m n mr (if fr then mirror cs (mv n n tm1 q) else mv n n tm1 q)).
Proof.
  intros ND BD Lt Li Ll Lr. unfold fsOf. assert (LR : length (repeat 0 (m * n)) = (m * n)%nat) by apply repeat_length.
  destruct (mv_mul m n m t ml (repeat 0 (m * n)) LR Lt Ll) as (p1 & E1 & L1 & V1). rewrite E1. cbn [bind].
  destruct (mv_mul m n m t mr (repeat 0 (m * n)) LR Lt Lr) as (p2 & E2 & L2 & V2). rewrite E2. cbn [bind].
  destruct (mv_mul m n n p1 tm1 (repeat 0 (m * n)) LR L1 Li) as (p3 & E3 & L3 & V3). rewrite E3. cbn [bind].
  assert (M : exists p2', (if fr then mirrorColsR m n cs p2 else Ok p2) = Ok p2' /\ length p2' = (m * n)%nat /\ forall q, length q = n -> mv m n p2' q = mv m m t (mv m n mr (if fr then mirror cs q else q))).
  { destruct fr.
    - destruct (mirror_ok m n cs p2 ND BD L2) as (b & E & L & V). exists b. split; [exact E|]. split; [exact L|]. intros q Lq. rewrite V, V2 by auto. reflexivity.
    - exists p2. split; [reflexivity|]. split; [exact L2|]. intros q Lq. apply V2. }
  destruct M as (p2' & E4 & L4 & V4). rewrite E4. cbn [bind].
  destruct (mv_mul m n n p2' tm1 (repeat 0 (m * n)) LR L4 Li) as (p5 & E5 & L5 & V5). rewrite E5. cbn [bind].
  exists p3, p5. split; [reflexivity|]. split; [exact L3|]. split; [exact L5|]. intros q. rewrite V3, V1, V5, V4 by apply len_mv. split; reflexivity.
Qed.
