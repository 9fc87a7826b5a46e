(** Small matrices and dense products: properties C35 and C37. *)
From Coq Require Import QArith Qabs Qfield Lqa.
From Verif Require Import Util MatSmall MatMul.
Open Scope nat_scope.

(** ** Specification: determinant of Leibniz *)

(** all permutations of a list *)
Fixpoint inserts (x : nat) (l : list nat) : list (list nat) :=
  (x :: l) :: match l with [] => [] | y :: l' => map (cons y) (inserts x l') end.
Fixpoint perms (l : list nat) : list (list nat) := match l with [] => [[]] | x :: l' => flat_map (inserts x) (perms l') end.
(** sign: parity of the number of inversions *)
Fixpoint inversions (l : list nat) : nat := match l with [] => 0 | x :: l' => length (filter (fun y => y <? x) l') + inversions l' end.
Definition sign (p : list nat) : Q := if Nat.even (inversions p) then 1%Q else (- 1)%Q.
Definition qsum (l : list Q) : Q := fold_right Qplus 0%Q l.
Definition qprod (l : list Q) : Q := fold_right Qmult 1%Q l.
(** entry of a row-major matrix with n columns *)
Definition ent (n : nat) (m : list Q) (r c : nat) : Q := nth (r * n + c) m 0%Q.
Definition leibniz (n : nat) (m : list Q) : Q :=
  qsum (map (fun p => sign p * qprod (map (fun ic => ent n m (fst ic) (snd ic)) (combine (seq 0 n) p))) (perms (seq 0 n)))%Q.
Definition product (n : nat) (a b : list Q) (r c : nat) : Q := qsum (map (fun k => ent n a r k * ent n b k c) (seq 0 n))%Q.
Definition identity (r c : nat) : Q := if r =? c then 1%Q else 0%Q.

Ltac dlist l := repeat (let x := fresh "x" in destruct l as [|x l]; [discriminate|]); destruct l; [|discriminate].

Lemma det2_eq a b c d : det2 [a; b; c; d] = Ok (a * d - b * c)%Q.
Proof. reflexivity. Qed.

(** C35, determinants *)
Theorem C35_det n m : 2 <= n <= 4 -> length m = n * n -> exists d, det n m = Ok d /\ (d == leibniz n m)%Q.
Proof.
  intros Hn L. assert (n = 2 \/ n = 3 \/ n = 4) as [->|[->| ->]] by lia; cbn in L; dlist m; (eexists; split; [reflexivity|]).
  - cbv -[Qplus Qmult Qminus Qopp Qeq]. ring.
  - cbv -[Qplus Qmult Qminus Qopp Qeq]. ring.
  - cbv -[Qplus Qmult Qminus Qopp Qeq]. ring.
Qed.
Print Assumptions C35_det.

Theorem C35_det_dimensions n m : ~ 2 <= n <= 4 -> det n m = Er Echeck.
Proof. intros H. unfold det. destruct n as [|[|[|[|[|n]]]]]; try reflexivity; lia. Qed.

Lemma gtAbs_spec d tol : gtAbs d tol = true <-> (tol < Qabs d)%Q.
Proof. unfold gtAbs. rewrite Qgt_alt. destruct (Qabs d ?= tol)%Q; split; congruence. Qed.

(** inverse of a n x n matrix *)
Definition inv (n : nat) (tol : Q) (m : list Q) : res (list Q) := if n =? 2 then inv2 tol m else inv3 tol m.

Lemma nz_of_gt d tol : (0 <= tol)%Q -> gtAbs d tol = true -> ~ (d == 0)%Q.
Proof. intros H G E. apply gtAbs_spec in G. rewrite E in G. change (Qabs 0) with 0%Q in G. lra. Qed.

(** C35, inverses: a matrix with a determinant above the tolerance has the two-sided inverse which is returned; all others are rejected. *)
Theorem C35_inv n tol m : n = 2 \/ n = 3 -> (0 <= tol)%Q -> length m = n * n ->
  ((tol < Qabs (leibniz n m))%Q -> exists o, inv n tol m = Ok o /\ length o = n * n /\
     forall r c, r < n -> c < n -> (product n m o r c == identity r c)%Q /\ (product n o m r c == identity r c)%Q) /\
  (~ (tol < Qabs (leibniz n m))%Q -> inv n tol m = Er Echeck).
Proof.
  intros Hn Ht L. destruct (C35_det n m ltac:(lia) L) as (d & Ed & Eq).
  assert (G : gtAbs d tol = true <-> (tol < Qabs (leibniz n m))%Q) by (rewrite gtAbs_spec, Eq; reflexivity).
  destruct Hn as [-> | ->]; cbn in L; dlist m.
  - unfold det in Ed. cbn [Nat.eqb] in Ed. unfold inv, inv2. cbn [Nat.eqb]. rewrite Ed. cbn [bind]. split; intros H.
    + rewrite (proj2 G H). assert (NZ := nz_of_gt _ _ Ht (proj2 G H)). cbn in Ed. injection Ed as Ed. eexists. split; [reflexivity|]. split; [reflexivity|].
      intros r c Hr Hc. rewrite <- Ed in NZ |- *. destruct r as [|[|]]; try lia; destruct c as [|[|]]; try lia;
        split; cbv -[Qplus Qmult Qminus Qopp Qeq Qdiv Qinv]; field; exact NZ.
    + destruct (gtAbs d tol) eqn:E; [exfalso; apply H, G; reflexivity|reflexivity].
  - unfold det in Ed. cbn [Nat.eqb] in Ed. unfold inv, inv3. cbn [Nat.eqb]. rewrite Ed. cbn [bind]. split; intros H.
    + rewrite (proj2 G H). assert (NZ := nz_of_gt _ _ Ht (proj2 G H)). cbn in Ed. injection Ed as Ed. eexists. split; [reflexivity|]. split; [reflexivity|].
      intros r c Hr Hc. rewrite <- Ed in NZ |- *. destruct r as [|[|[|]]]; try lia; destruct c as [|[|[|]]]; try lia;
        split; cbv -[Qplus Qmult Qminus Qopp Qeq Qdiv Qinv]; field; exact NZ.
    + destruct (gtAbs d tol) eqn:E; [exfalso; apply H, G; reflexivity|reflexivity].
Qed.
Print Assumptions C35_inv.

Example C35_example : (exists d, det 4 [1; 2; 0; 0; 0; 3; 1; 0; 0; 0; 2; 5; 1; 0; 0; 2]%Q = Ok d /\ (d == 2)%Q) /\
  (exists o, inv 3 (1#1000) [2; 0; 1; 0; 1; 0; 1; 0; 1]%Q = Ok o) /\ inv 2 (1#1000) [1; 2; 2; 4]%Q = Er Echeck.
Proof. split; [eexists; split; vm_compute; reflexivity|]. split; [eexists; vm_compute; reflexivity|vm_compute; reflexivity]. Qed.

(** ** Dense products *)

Lemma for_ext {S} lo hi (f g : nat -> S -> res S) s : (forall i s, f i s = g i s) -> for_ lo hi f s = for_ lo hi g s.
Proof.
  intros H. unfold for_. generalize (hi - lo). intros n. revert lo s. induction n as [|n IH]; intros lo s; cbn; [reflexivity|].
  rewrite H. destruct (g lo s); cbn; auto.
Qed.

(** loop nest which updates distinct positions *)
Lemma nest3 {T} (d : T) (id : nat -> nat -> nat -> nat) (f : nat -> nat -> nat -> T -> T) (B : nat -> nat -> nat -> list T -> res (list T)) m n r L c0 :
  (forall x y z x' y' z', x < m -> y < n -> z < r -> x' < m -> y' < n -> z' < r -> id x y z = id x' y' z' -> x = x' /\ y = y' /\ z = z') ->
  (forall x y z, x < m -> y < n -> z < r -> id x y z < L) ->
  (forall x y z c, x < m -> y < n -> z < r -> length c = L -> B x y z c = Ok (upd c (id x y z) (f x y z (nth (id x y z) c d)))) ->
  length c0 = L ->
  exists c', for_ 0 m (fun x c => for_ 0 n (fun y c => for_ 0 r (fun z c => B x y z c) c) c) c0 = Ok c' /\ length c' = L /\
    (forall x y z, x < m -> y < n -> z < r -> nth (id x y z) c' d = f x y z (nth (id x y z) c0 d)) /\
    (forall p, (forall x y z, x < m -> y < n -> z < r -> p <> id x y z) -> nth p c' d = nth p c0 d).
Proof.
  intros INJ BND HB L0.
  set (bef := fun x y z X Y Z => x < X \/ (x = X /\ (y < Y \/ (y = Y /\ z < Z)))).
  set (Inv := fun X Y Z c => length c = L /\
    (forall x y z, x < m -> y < n -> z < r -> bef x y z X Y Z -> nth (id x y z) c d = f x y z (nth (id x y z) c0 d)) /\
    (forall x y z, x < m -> y < n -> z < r -> ~ bef x y z X Y Z -> nth (id x y z) c d = nth (id x y z) c0 d) /\
    (forall p, (forall x y z, x < m -> y < n -> z < r -> p <> id x y z) -> nth p c d = nth p c0 d)).
  destruct (for_ok (fun X c => Inv X 0 0 c) 0 m (fun x c => for_ 0 n (fun y c => for_ 0 r (fun z c => B x y z c) c) c) c0) as (c' & E & H).
  - lia.
  - split; [auto|]. split; [|auto]. intros x y z _ _ _ H. unfold bef in H. lia.
  - intros X c HX IX.
    destruct (for_ok (fun Y c => Inv X Y 0 c) 0 n (fun y c => for_ 0 r (fun z c => B X y z c) c) c) as (c1 & E1 & H1); [lia|auto| |].
    + intros Y c2 HY IY.
      destruct (for_ok (fun Z c => Inv X Y Z c) 0 r (fun z c => B X Y z c) c2) as (c3 & E3 & H3); [lia|auto| |].
      * intros Z c4 HZ (I1 & I2 & I3 & I4). cbv beta. rewrite HB by (auto; lia). eexists. split; [reflexivity|].
        assert (Hid := BND X Y Z ltac:(lia) ltac:(lia) ltac:(lia)). split; [rewrite length_upd; auto|]. split; [|split].
        -- intros x y z Hx Hy Hz Hb. destruct (Nat.eq_dec (id x y z) (id X Y Z)) as [Ei|Ni].
           ++ destruct (INJ x y z X Y Z Hx Hy Hz ltac:(lia) ltac:(lia) ltac:(lia) Ei) as (-> & -> & ->). rewrite nth_upd_eq by lia. f_equal.
              apply I3; auto. unfold bef. lia.
           ++ rewrite nth_upd_ne by auto. apply I2; auto. unfold bef in *.
              assert (~ (x = X /\ y = Y /\ z = Z)) by (intros (-> & -> & ->); auto). lia.
        -- intros x y z Hx Hy Hz Hb. assert (Ni : id x y z <> id X Y Z).
           { intros Ei. destruct (INJ x y z X Y Z Hx Hy Hz ltac:(lia) ltac:(lia) ltac:(lia) Ei) as (-> & -> & ->). apply Hb. unfold bef. lia. }
           rewrite nth_upd_ne by auto. apply I3; auto. unfold bef in *. lia.
        -- intros p Hp. rewrite nth_upd_ne; [apply I4; auto|]. apply not_eq_sym, Hp; lia.
      * exists c3. split; auto. destruct H3 as (I1 & I2 & I3 & I4). split; [auto|]. split; [|split; auto].
        -- intros x y z Hx Hy Hz Hb. apply I2; auto. unfold bef in *. lia.
        -- intros x y z Hx Hy Hz Hb. apply I3; auto. unfold bef in *. lia.
    + exists c1. split; auto. destruct H1 as (I1 & I2 & I3 & I4). split; [auto|]. split; [|split; auto].
      * intros x y z Hx Hy Hz Hb. apply I2; auto. unfold bef in *. lia.
      * intros x y z Hx Hy Hz Hb. apply I3; auto. unfold bef in *. lia.
  - exists c'. split; [auto|]. destruct H as (I1 & I2 & I3 & I4). split; [auto|]. split; [|auto].
    intros x y z Hx Hy Hz. apply I2; auto. unfold bef. lia.
Qed.

(** as before, repeated for k = 0, 1, ... *)
Lemma nest4 {T} (d : T) (id : nat -> nat -> nat -> nat) (f : nat -> nat -> nat -> nat -> T -> T) (B : nat -> nat -> nat -> nat -> list T -> res (list T)) K m n r L c0 :
  (forall x y z x' y' z', x < m -> y < n -> z < r -> x' < m -> y' < n -> z' < r -> id x y z = id x' y' z' -> x = x' /\ y = y' /\ z = z') ->
  (forall x y z, x < m -> y < n -> z < r -> id x y z < L) ->
  (forall k x y z c, k < K -> x < m -> y < n -> z < r -> length c = L -> B k x y z c = Ok (upd c (id x y z) (f k x y z (nth (id x y z) c d)))) ->
  length c0 = L ->
  exists c', for_ 0 K (fun k c => for_ 0 m (fun x c => for_ 0 n (fun y c => for_ 0 r (fun z c => B k x y z c) c) c) c) c0 = Ok c' /\ length c' = L /\
    (forall x y z, x < m -> y < n -> z < r -> nth (id x y z) c' d = fold_left (fun v k => f k x y z v) (seq 0 K) (nth (id x y z) c0 d)) /\
    (forall p, (forall x y z, x < m -> y < n -> z < r -> p <> id x y z) -> nth p c' d = nth p c0 d).
Proof.
  intros INJ BND HB L0.
  destruct (for_ok (fun k c => length c = L /\
    (forall x y z, x < m -> y < n -> z < r -> nth (id x y z) c d = fold_left (fun v k => f k x y z v) (seq 0 k) (nth (id x y z) c0 d)) /\
    (forall p, (forall x y z, x < m -> y < n -> z < r -> p <> id x y z) -> nth p c d = nth p c0 d)) 0 K
    (fun k c => for_ 0 m (fun x c => for_ 0 n (fun y c => for_ 0 r (fun z c => B k x y z c) c) c) c) c0) as (c' & E & H); [lia| | |].
  - split; [auto|]. split; auto.
  - intros k c Hk (I1 & I2 & I3).
    destruct (nest3 d id (f k) (B k) m n r L c INJ BND) as (c1 & E1 & L1 & V1 & U1); auto.
    { intros. apply HB; auto. lia. }
    exists c1. split; [exact E1|]. split; [auto|]. split.
    + intros x y z Hx Hy Hz. rewrite V1, I2 by auto. rewrite seq_S, fold_left_app. reflexivity.
    + intros p Hp. rewrite U1, I3 by auto. reflexivity.
  - exists c'. split; [exact E|exact H].
Qed.

Section Products.
Context {T : Type}.
Variables (add mul : T -> T -> T) (zero : T) (isz : T -> bool) (d : T).

(** Specification: position of entry (x,y) of simulation z among r fused ones, leading dimension ld. *)
Definition pos (r ld x y z : nat) : nat := x * ld * r + y * r + z.
(** arrays cover the m x n block with leading dimension ld *)
Definition covers (r m n ld : nat) (l : list T) : Prop := forall x y z, x < m -> y < n -> z < r -> pos r ld x y z < length l.
(** sum over k of alpha*A*B, added to the initial value in ascending order of k *)
Definition sumOf (K : nat) (alpha : T) (a b : nat -> T) (v : T) : T := fold_left (fun v k => add v (mul (mul alpha (a k)) (b k))) (seq 0 K) v.
Definition scaled (beta v : T) : T := if isz beta then zero else mul v beta.

Lemma pos_inj r n ld x y z x' y' z' : n <= ld -> y < n -> z < r -> y' < n -> z' < r -> pos r ld x y z = pos r ld x' y' z' -> x = x' /\ y = y' /\ z = z'.
Proof.
  unfold pos. intros Hn Hy Hz Hy' Hz' E.
  assert (E1 : (x * ld + y) * r + z = (x' * ld + y') * r + z') by lia.
  assert (A : forall q1 q2 w1 w2 b, w1 < b -> w2 < b -> q1 * b + w1 = q2 * b + w2 -> q1 = q2 /\ w1 = w2).
  { intros q1 q2 w1 w2 b H1 H2 E0. assert (q1 = q2).
    { destruct (Nat.lt_trichotomy q1 q2) as [H|[H|H]]; auto; exfalso; nia. }
    subst. lia. }
  destruct (A _ _ _ _ r Hz Hz' E1) as [E2 ->]. destruct (A x x' y y' ld ltac:(lia) ltac:(lia) E2) as [-> ->]. auto.
Qed.

Lemma initC_ok r m n ldC beta c : n <= ldC -> covers r m n ldC c ->
  exists c', initC mul zero isz r m n ldC beta c = Ok c' /\ length c' = length c /\
    (forall x y z, x < m -> y < n -> z < r -> nth (pos r ldC x y z) c' d = scaled beta (nth (pos r ldC x y z) c d)) /\
    (forall p, (forall x y z, x < m -> y < n -> z < r -> p <> pos r ldC x y z) -> nth p c' d = nth p c d).
Proof.
  intros Hn HC. unfold initC.
  apply (nest3 d (pos r ldC) (fun x y z v => scaled beta v)); auto.
  - intros x y z x' y' z' _ Hy Hz _ Hy' Hz'. apply (pos_inj r n); auto.
  - intros x y z c1 Hx Hy Hz Lc. assert (Hp := HC x y z Hx Hy Hz). cbv zeta. fold (pos r ldC x y z). unfold scaled.
    destruct (isz beta); cbn [negb]; [rewrite wr_ok by lia; reflexivity|]. rewrite (rd_ok _ _ d) by lia. cbn [bind]. rewrite wr_ok by lia. reflexivity.
Qed.

(** C37: A and C are fused: C[z] = beta*C[z] + alpha*A[z].B for every simulation z; nothing else is written. *)
Theorem C37_fused_AC r m n k ldA ldB ldC alpha beta a b c : n <= ldC ->
  covers r m n ldC c -> covers r m k ldA a -> covers 1 k n ldB b ->
  exists c', matMulFusedAC add mul zero isz r m n k ldA ldB ldC alpha beta a b c = Ok c' /\ length c' = length c /\
    (forall x y z, x < m -> y < n -> z < r ->
      nth (pos r ldC x y z) c' d = sumOf k alpha (fun l => nth (pos r ldA x l z) a d) (fun l => nth (pos 1 ldB l y 0) b d) (scaled beta (nth (pos r ldC x y z) c d))) /\
    (forall p, (forall x y z, x < m -> y < n -> z < r -> p <> pos r ldC x y z) -> nth p c' d = nth p c d).
Proof.
  intros Hn HC HA HB. unfold matMulFusedAC. destruct (initC_ok r m n ldC beta c Hn HC) as (c1 & E1 & L1 & V1 & U1). rewrite E1. cbn [bind].
  destruct (nest4 d (pos r ldC) (fun l x y z v => add v (mul (mul alpha (nth (pos r ldA x l z) a d)) (nth (pos 1 ldB l y 0) b d)))
    (fun lk lm ln lr c => let id := lm * ldC * r + ln * r + lr in
      x <- rd c id;; y <- rd a (lm * ldA * r + lk * r + lr);; z <- rd b (lk * ldB + ln);; wr c id (add x (mul (mul alpha y) z))) k m n r (length c) c1) as (c' & E & L & V & U); auto.
  - intros x y z x' y' z' _ Hy Hz _ Hy' Hz'. apply (pos_inj r n); auto.
  - intros l x y z c2 Hl Hx Hy Hz Lc. assert (Hp := HC x y z Hx Hy Hz). assert (Ha := HA x l z Hx Hl Hz). assert (Hb := HB l y 0 Hl Hy ltac:(lia)).
    cbv zeta. fold (pos r ldC x y z). fold (pos r ldA x l z). replace (l * ldB + y) with (pos 1 ldB l y 0) by (unfold pos; lia).
    rewrite (rd_ok _ _ d) by lia. cbn [bind]. rewrite (rd_ok _ _ d) by lia. cbn [bind]. rewrite (rd_ok _ _ d) by lia. cbn [bind]. rewrite wr_ok by lia. reflexivity.
  - exists c'. split; [exact E|]. split; [auto|]. split.
    + intros x y z Hx Hy Hz. rewrite V, V1 by auto. reflexivity.
    + intros p Hp. rewrite U, U1 by auto. reflexivity.
Qed.

(** C37: B and C are fused *)
Theorem C37_fused_BC r m n k ldA ldB ldC alpha beta a b c : n <= ldC ->
  covers r m n ldC c -> covers 1 m k ldA a -> covers r k n ldB b ->
  exists c', matMulFusedBC add mul zero isz r m n k ldA ldB ldC alpha beta a b c = Ok c' /\ length c' = length c /\
    (forall x y z, x < m -> y < n -> z < r ->
      nth (pos r ldC x y z) c' d = sumOf k alpha (fun l => nth (pos 1 ldA x l 0) a d) (fun l => nth (pos r ldB l y z) b d) (scaled beta (nth (pos r ldC x y z) c d))) /\
    (forall p, (forall x y z, x < m -> y < n -> z < r -> p <> pos r ldC x y z) -> nth p c' d = nth p c d).
Proof.
  intros Hn HC HA HB. unfold matMulFusedBC. destruct (initC_ok r m n ldC beta c Hn HC) as (c1 & E1 & L1 & V1 & U1). rewrite E1. cbn [bind].
  destruct (nest4 d (pos r ldC) (fun l x y z v => add v (mul (mul alpha (nth (pos 1 ldA x l 0) a d)) (nth (pos r ldB l y z) b d)))
    (fun lk lm ln lr c => let id := lm * ldC * r + ln * r + lr in
      x <- rd c id;; y <- rd a (lm * ldA + lk);; z <- rd b (lk * ldB * r + ln * r + lr);; wr c id (add x (mul (mul alpha y) z))) k m n r (length c) c1) as (c' & E & L & V & U); auto.
  - intros x y z x' y' z' _ Hy Hz _ Hy' Hz'. apply (pos_inj r n); auto.
  - intros l x y z c2 Hl Hx Hy Hz Lc. assert (Hp := HC x y z Hx Hy Hz). assert (Ha := HA x l 0 Hx Hl ltac:(lia)). assert (Hb := HB l y z Hl Hy Hz).
    cbv zeta. fold (pos r ldC x y z). fold (pos r ldB l y z). replace (x * ldA + l) with (pos 1 ldA x l 0) by (unfold pos; lia).
    rewrite (rd_ok _ _ d) by lia. cbn [bind]. rewrite (rd_ok _ _ d) by lia. cbn [bind]. rewrite (rd_ok _ _ d) by lia. cbn [bind]. rewrite wr_ok by lia. reflexivity.
  - exists c'. split; [exact E|]. split; [auto|]. split.
    + intros x y z Hx Hy Hz. rewrite V, V1 by auto. reflexivity.
    + intros p Hp. rewrite U, U1 by auto. reflexivity.
Qed.

(** C37: C = A.B, whatever C held before *)
Theorem C37_matmul m n k a b c : length c = m * n -> length a = m * k -> length b = k * n ->
  exists c', matMulB0 add mul zero m n k a b c = Ok c' /\ length c' = m * n /\
    (forall x y, x < m -> y < n -> nth (x * n + y) c' d = fold_left (fun v l => add v (mul (nth (x * k + l) a d) (nth (l * n + y) b d))) (seq 0 k) zero).
Proof.
  intros LC LA LB. unfold matMulB0.
  assert (Bd : forall x y q w, x < q -> y < w -> x * w + y < q * w) by (intros; nia).
  assert (INJ : forall x y z x' y' z', x < m -> y < n -> z < 1 -> x' < m -> y' < n -> z' < 1 -> x * n + y = x' * n + y' -> x = x' /\ y = y' /\ z = z').
  { intros x y z x' y' z' Hx Hy Hz Hx' Hy' Hz' E. assert (x = x') by (destruct (Nat.lt_trichotomy x x') as [H|[H|H]]; auto; exfalso; nia). subst. lia. }
  assert (One : forall (B : list T -> res (list T)) c, B c = for_ 0 1 (fun _ c => B c) c).
  { intros B c0. unfold for_. cbn. destruct (B c0); reflexivity. }
  destruct (nest3 d (fun x y _ => x * n + y) (fun _ _ _ _ => zero) (fun lm ln _ c => wr c (lm * n + ln) zero) m n 1 (m * n) c INJ) as (c1 & E1 & L1 & V1 & _); auto.
  { intros x y z c0 Hx Hy _ L. rewrite wr_ok; [reflexivity|]. rewrite L. auto. }
  rewrite (for_ext 0 m _ (fun x c => for_ 0 n (fun y c => for_ 0 1 (fun z c => wr c (x * n + y) zero) c) c)), E1.
  2:{ intros x c0. apply for_ext. intros y c2. apply (One (fun c => wr c (x * n + y) zero)). }
  cbn [bind].
  destruct (nest4 d (fun x y _ => x * n + y) (fun l x y _ v => add v (mul (nth (x * k + l) a d) (nth (l * n + y) b d)))
    (fun lk lm ln _ c => x <- rd c (lm * n + ln);; y <- rd a (lm * k + lk);; z <- rd b (lk * n + ln);; wr c (lm * n + ln) (add x (mul y z)))
    k m n 1 (m * n) c1 INJ) as (c2 & E2 & L2 & V2 & _); auto.
  { intros l x y z c0 Hl Hx Hy _ L. assert (x * n + y < length c0) by (rewrite L; auto). assert (x * k + l < length a) by (rewrite LA; auto).
    assert (l * n + y < length b) by (rewrite LB; auto).
    rewrite (rd_ok _ _ d) by auto. cbn [bind]. rewrite (rd_ok _ _ d) by auto. cbn [bind]. rewrite (rd_ok _ _ d) by auto. cbn [bind]. rewrite wr_ok by auto. reflexivity. }
  exists c2. split; [|split; [auto|]].
  - rewrite <- E2. apply for_ext. intros l c3. apply for_ext. intros x c4. apply for_ext. intros y c5.
    apply (One (fun c => x0 <- rd c (x * n + y);; y0 <- rd a (x * k + l);; z <- rd b (l * n + y);; wr c (x * n + y) (add x0 (mul y0 z)))).
  - intros x y Hx Hy. rewrite (V2 x y 0) by auto. rewrite (V1 x y 0) by auto. reflexivity.
Qed.

(** Specification: data of simulation z among r fused ones. *)
Definition run (r z : nat) (l : list T) : list T := map (fun q => nth (q * r + z) l d) (seq 0 (length l / r)).

Lemma run_length r z l : length (run r z l) = length l / r.
Proof. unfold run. rewrite map_length, seq_length. reflexivity. Qed.

Lemma run_nth r z l q : q < length l / r -> nth q (run r z l) d = nth (q * r + z) l d.
Proof.
  intros H. unfold run. rewrite nth_indep with (d' := (fun q => nth (q * r + z) l d) 0) by (rewrite map_length, seq_length; auto).
  rewrite map_nth with (d := 0) (f := fun q => nth (q * r + z) l d). rewrite seq_nth by auto. reflexivity.
Qed.

Lemma pos_run r ld x y z : pos r ld x y z = pos 1 ld x y 0 * r + z.
Proof. unfold pos. lia. Qed.

Lemma covers_lt r m n ld l x y : covers r m n ld l -> x < m -> y < n -> 0 < r -> pos 1 ld x y 0 < length l / r.
Proof.
  intros C Hx Hy Hr. specialize (C x y (r - 1) Hx Hy ltac:(lia)). rewrite (pos_run r) in C.
  apply Nat.div_le_lower_bound; [lia|]. lia.
Qed.

Lemma covers_run r m n ld l z : covers r m n ld l -> z < r -> covers 1 m n ld (run r z l).
Proof.
  intros C Hz x y z' Hx Hy Hz'. rewrite run_length. replace z' with 0 by lia. eapply covers_lt; eauto. lia.
Qed.

Lemma run_at r m n ld l x y z : covers r m n ld l -> x < m -> y < n -> z < r -> nth (pos 1 ld x y 0) (run r z l) d = nth (pos r ld x y z) l d.
Proof. intros C Hx Hy Hz. rewrite run_nth by (eapply covers_lt; eauto; lia). rewrite (pos_run r). reflexivity. Qed.

Lemma list_ext (l1 l2 : list T) : length l1 = length l2 -> (forall p, p < length l1 -> nth p l1 d = nth p l2 d) -> l1 = l2.
Proof. intros L H. apply (nth_ext l1 l2 d d L H). Qed.

(** decides whether a position belongs to the block *)
Lemma in_block r m n ld p : (exists x y z, x < m /\ y < n /\ z < r /\ p = pos r ld x y z) \/ (forall x y z, x < m -> y < n -> z < r -> p <> pos r ld x y z).
Proof.
  destruct (existsb (fun x => existsb (fun y => existsb (fun z => p =? pos r ld x y z) (seq 0 r)) (seq 0 n)) (seq 0 m)) eqn:E.
  - left. apply existsb_exists in E. destruct E as (x & Hx & E). apply existsb_exists in E. destruct E as (y & Hy & E).
    apply existsb_exists in E. destruct E as (z & Hz & E). apply in_seq in Hx, Hy, Hz. apply Nat.eqb_eq in E. exists x, y, z. lia.
  - right. intros x y z Hx Hy Hz ->. rewrite <- Bool.not_true_iff_false in E. apply E.
    apply existsb_exists. exists x. split; [apply in_seq; lia|]. apply existsb_exists. exists y. split; [apply in_seq; lia|].
    apply existsb_exists. exists z. split; [apply in_seq; lia|]. apply Nat.eqb_refl.
Qed.

Lemma fold_ext (f g : T -> nat -> T) l : (forall v k, In k l -> f v k = g v k) -> forall v, fold_left f l v = fold_left g l v.
Proof.
  induction l as [|k l IH]; intros H v; cbn [fold_left]; [reflexivity|]. rewrite H by (left; auto). apply IH. intros. apply H. right; auto.
Qed.

(** C37: a fused product does for every simulation exactly what the product does on the data of this simulation alone. *)
Theorem C37_simulations_AC r m n k ldA ldB ldC alpha beta a b c z : n <= ldC ->
  covers r m n ldC c -> covers r m k ldA a -> covers 1 k n ldB b -> z < r ->
  exists c', matMulFusedAC add mul zero isz r m n k ldA ldB ldC alpha beta a b c = Ok c' /\
    matMulFusedAC add mul zero isz 1 m n k ldA ldB ldC alpha beta (run r z a) b (run r z c) = Ok (run r z c').
Proof.
  intros Hn HC HA HB Hz. destruct (C37_fused_AC r m n k ldA ldB ldC alpha beta a b c Hn HC HA HB) as (c' & E & L & V & U). exists c'. split; auto.
  destruct (C37_fused_AC 1 m n k ldA ldB ldC alpha beta (run r z a) b (run r z c) Hn) as (c1 & E1 & L1 & V1 & U1); auto.
  { eapply covers_run; eauto. }
  { eapply covers_run; eauto. }
  assert (HC' : covers r m n ldC c') by (intros x y w Hx Hy Hw; rewrite L; auto).
  rewrite E1. f_equal. apply list_ext; [rewrite L1, !run_length, L; reflexivity|]. intros p Hp. rewrite L1, run_length in Hp.
  destruct (in_block 1 m n ldC p) as [(x & y & w & Hx & Hy & Hw & ->)|N].
  - replace w with 0 by lia. rewrite V1 by (auto; lia). rewrite (run_at r m n ldC c') by auto. rewrite V by auto. rewrite (run_at r m n ldC c) by auto.
    unfold sumOf. apply fold_ext. intros v l Hl. apply in_seq in Hl. rewrite (run_at r m k ldA a) by (auto; lia). reflexivity.
  - rewrite U1 by auto. rewrite !run_nth by (rewrite ?L; auto). symmetry. apply U. intros x y w Hx Hy Hw E0. rewrite (pos_run r) in E0.
    apply (N x y 0); auto. assert (p * r + z = pos 1 ldC x y 0 * r + w) by auto. destruct (Nat.lt_trichotomy p (pos 1 ldC x y 0)) as [H'|[H'|H']]; auto; exfalso; nia.
Qed.

Theorem C37_simulations_BC r m n k ldA ldB ldC alpha beta a b c z : n <= ldC ->
  covers r m n ldC c -> covers 1 m k ldA a -> covers r k n ldB b -> z < r ->
  exists c', matMulFusedBC add mul zero isz r m n k ldA ldB ldC alpha beta a b c = Ok c' /\
    matMulFusedBC add mul zero isz 1 m n k ldA ldB ldC alpha beta a (run r z b) (run r z c) = Ok (run r z c').
Proof.
  intros Hn HC HA HB Hz. destruct (C37_fused_BC r m n k ldA ldB ldC alpha beta a b c Hn HC HA HB) as (c' & E & L & V & U). exists c'. split; auto.
  destruct (C37_fused_BC 1 m n k ldA ldB ldC alpha beta a (run r z b) (run r z c) Hn) as (c1 & E1 & L1 & V1 & U1); auto.
  { eapply covers_run; eauto. }
  { eapply covers_run; eauto. }
  assert (HC' : covers r m n ldC c') by (intros x y w Hx Hy Hw; rewrite L; auto).
  rewrite E1. f_equal. apply list_ext; [rewrite L1, !run_length, L; reflexivity|]. intros p Hp. rewrite L1, run_length in Hp.
  destruct (in_block 1 m n ldC p) as [(x & y & w & Hx & Hy & Hw & ->)|N].
  - replace w with 0 by lia. rewrite V1 by (auto; lia). rewrite (run_at r m n ldC c') by auto. rewrite V by auto. rewrite (run_at r m n ldC c) by auto.
    unfold sumOf. apply fold_ext. intros v l Hl. apply in_seq in Hl. rewrite (run_at r k n ldB b) by (auto; lia). reflexivity.
  - rewrite U1 by auto. rewrite !run_nth by (rewrite ?L; auto). symmetry. apply U. intros x y w Hx Hy Hw E0. rewrite (pos_run r) in E0.
    apply (N x y 0); auto. assert (p * r + z = pos 1 ldC x y 0 * r + w) by auto. destruct (Nat.lt_trichotomy p (pos 1 ldC x y 0)) as [H'|[H'|H']]; auto; exfalso; nia.
Qed.

End Products.
Print Assumptions C37_fused_AC.
Print Assumptions C37_fused_BC.
Print Assumptions C37_matmul.
Print Assumptions C37_simulations_AC.
Print Assumptions C37_simulations_BC.

(** In exact arithmetic the value is beta*C + alpha * sum of A*B. *)
Theorem C37_exact K (alpha beta v : Q) (a b : nat -> Q) :
  (sumOf Qplus Qmult K alpha a b (scaled Qmult 0 (fun x => Qeq_bool x 0) beta v) == beta * v + alpha * qsum (map (fun k => a k * b k) (seq 0 K)))%Q.
Proof.
  assert (S : forall l x, (fold_left (fun v k => v + alpha * a k * b k) l x == x + alpha * qsum (map (fun k => a k * b k) l))%Q).
  { induction l as [|k l IH]; intros x; cbn [fold_left map qsum fold_right]; [ring|]. rewrite IH. unfold qsum. ring. }
  unfold sumOf. rewrite S. unfold scaled. destruct (Qeq_bool beta 0) eqn:E; [|ring]. apply Qeq_bool_eq in E. rewrite E. ring.
Qed.
Print Assumptions C37_exact.

Example C37_example :
  covers 2 1 2 2 [1; 2; 3; 4]%Z /\ covers 2 1 2 2 [1; 0; 2; 1]%Z /\ covers 1 2 2 3 [1; 2; 0; 3; 4; 0]%Z /\
  matMulFusedAC Z.add Z.mul 0%Z (Z.eqb 0) 2 1 2 2 2 3 2 2%Z 1%Z [1; 0; 2; 1]%Z [1; 2; 0; 3; 4; 0]%Z [1; 2; 3; 4]%Z = Ok [15; 8; 23; 12]%Z /\
  matMulFusedAC Z.add Z.mul 0%Z (Z.eqb 0) 1 1 2 2 2 3 2 2%Z 1%Z (run 0%Z 2 1 [1; 0; 2; 1]%Z) [1; 2; 0; 3; 4; 0]%Z (run 0%Z 2 1 [1; 2; 3; 4]%Z) = Ok [8; 12]%Z.
Proof. repeat split; try (intros x y z Hx Hy Hz; unfold pos; cbn [length]; lia); vm_compute; reflexivity. Qed.

(** ** Groups of kernels *)

(** kernels added to group g, in this order *)
Definition addedTo {T} (g : nat) (l : list (nat * @vanilla T)) : list vanilla := map snd (filter (fun gk => fst gk =? g) l).

Fixpoint addAll {T} (l : list (nat * @vanilla T)) (ks : list (list vanilla)) : res (list (list vanilla)) :=
  match l with [] => Ok ks | gk :: l => ks <- vanillaAdd (fst gk) (snd gk) ks;; addAll l ks end.

Lemma nth_app_repeat {A} (l : list (list A)) q g : nth g (l ++ repeat [] q) [] = nth g l [].
Proof.
  destruct (Nat.lt_ge_cases g (length l)) as [H|H]; [apply app_nth1; auto|]. rewrite app_nth2, nth_repeat by auto. rewrite nth_overflow; auto.
Qed.

Lemma vanillaAdd_ok {T} g (k : @vanilla T) ks : vCrs k = 1 \/ vAC k = true \/ vBC k = true ->
  exists ks', vanillaAdd g k ks = Ok ks' /\ forall g', nth g' ks' [] = nth g' ks [] ++ (if g =? g' then [k] else []).
Proof.
  intros H. unfold vanillaAdd.
  assert (C : ((vCrs k =? 1) || (vAC k || vBC k)) = true).
  { destruct H as [-> | [-> | ->]]; [reflexivity|apply orb_true_r|]. rewrite orb_true_r. apply orb_true_r. }
  rewrite C. cbn [check bind]. set (ks1 := if length ks <=? g then ks ++ repeat [] (g + 1 - length ks) else ks).
  assert (L : g < length ks1).
  { unfold ks1. destruct (Nat.leb_spec (length ks) g); [rewrite app_length, repeat_length|]; lia. }
  assert (N : forall g', nth g' ks1 [] = nth g' ks []).
  { intros g'. unfold ks1. destruct (length ks <=? g); auto. apply nth_app_repeat. }
  rewrite (rd_ok _ _ []) by auto. cbn [bind]. rewrite wr_ok by auto. eexists. split; [reflexivity|]. intros g'.
  destruct (Nat.eqb_spec g g') as [<-|Ne]; [rewrite nth_upd_eq, N by auto; reflexivity|]. rewrite nth_upd_ne, N, app_nil_r by auto. reflexivity.
Qed.

(** C37: kernel i of group g is the i-th one added to this group, for every order of additions. *)
Theorem C37_kernel_groups {T} (l : list (nat * @vanilla T)) :
  (forall g k, In (g, k) l -> vCrs k = 1 \/ vAC k = true \/ vBC k = true) ->
  exists ks, addAll l [] = Ok ks /\ forall g i, nth_error (nth g ks []) i = nth_error (addedTo g l) i.
Proof.
  assert (G : forall l ks, (forall g (k : @vanilla T), In (g, k) l -> vCrs k = 1 \/ vAC k = true \/ vBC k = true) ->
    exists ks', addAll l ks = Ok ks' /\ forall g, nth g ks' [] = nth g ks [] ++ addedTo g l).
  { clear l. induction l as [|[g k] l IH]; intros ks H; cbn [addAll].
    - exists ks. split; [reflexivity|]. intros g. unfold addedTo. cbn. rewrite app_nil_r. reflexivity.
    - cbn [fst snd]. destruct (vanillaAdd_ok g k ks) as (ks1 & E1 & V1); [apply (H g); left; auto|]. rewrite E1. cbn [bind].
      destruct (IH ks1) as (ks2 & E2 & V2); [intros; eapply H; right; eauto|]. exists ks2. split; [auto|]. intros g'. rewrite V2, V1, <- app_assoc. f_equal.
      unfold addedTo. cbn [filter fst]. destruct (g =? g'); reflexivity. }
  intros H. destruct (G l [] H) as (ks & E & V). exists ks. split; auto. intros g i. rewrite V. destruct g; reflexivity.
Qed.
Print Assumptions C37_kernel_groups.

Example C37_groups_example : let k c := Build_vanilla 1 1 1 1 1 1 1%Z 0%Z true false c in
  exists ks, addAll [(2, k 4); (0, k 1); (2, k 8)] [] = Ok ks /\ nth_error (nth 2 ks []) 1 = Some (k 8).
Proof. cbv zeta. eexists. split; reflexivity. Qed.

(** ** Transposition (C36) *)

Theorem C36_transpose_dense {T} (d : T) n a : length a = n * n ->
  exists a', transposeDense n a = Ok a' /\ length a' = n * n /\ forall r c, r < n -> c < n -> nth (r * n + c) a' d = nth (c * n + r) a d.
Proof.
  intros L. unfold transposeDense.
  set (dn := fun r c R C => Nat.min r c < R \/ (Nat.min r c = R /\ Nat.max r c < C)).
  set (Inv := fun R C b => length b = n * n /\ (forall r c, r < n -> c < n -> dn r c R C -> nth (r * n + c) b d = nth (c * n + r) a d) /\
    (forall r c, r < n -> c < n -> ~ dn r c R C -> nth (r * n + c) b d = nth (r * n + c) a d)).
  assert (INJ : forall x y x' y', y < n -> y' < n -> x * n + y = x' * n + y' -> x = x' /\ y = y').
  { intros x y x' y' Hy Hy' E. assert (x = x') by (destruct (Nat.lt_trichotomy x x') as [H|[H|H]]; auto; exfalso; nia). subst. lia. }
  assert (BND : forall x y, x < n -> y < n -> x * n + y < n * n) by (intros; nia).
  match goal with |- context [for_ 0 n ?B a] => destruct (for_ok (fun R b => Inv R (R + 1) b) 0 n B a) as (a' & E & H) end.
  - lia.
  - split; [auto|]. split; [|auto]. intros r c Hr Hc D. unfold dn in D. assert (r = 0 /\ c = 0) as [-> ->] by lia. reflexivity.
  - intros R b HR IR.
    match goal with |- context [for_ (R + 1) n ?B b] => destruct (for_ok (fun C b => Inv R C b) (R + 1) n B b) as (b' & E & H) end.
    + lia.
    + auto.
    + intros C b1 HC (I1 & I2 & I3). cbv beta zeta. assert (B1 := BND R C ltac:(lia) ltac:(lia)). assert (B2 := BND C R ltac:(lia) ltac:(lia)).
      rewrite (rd_ok _ _ d) by lia. cbn [bind]. rewrite (rd_ok _ _ d) by lia. cbn [bind]. rewrite wr_ok by lia. cbn [bind].
      rewrite wr_ok by (rewrite length_upd; lia). eexists. split; [reflexivity|].
      assert (Ne : R * n + C <> C * n + R) by (intros X; apply INJ in X; lia).
      split; [rewrite !length_upd; auto|]. split.
      * intros r c Hr Hc D. destruct (Nat.eq_dec (r * n + c) (C * n + R)) as [E2|N2].
        { apply INJ in E2; try lia. destruct E2 as [-> ->]. rewrite nth_upd_eq by (rewrite length_upd; lia). apply I3; try lia. unfold dn. lia. }
        rewrite nth_upd_ne by auto. destruct (Nat.eq_dec (r * n + c) (R * n + C)) as [E1|N1].
        { apply INJ in E1; try lia. destruct E1 as [-> ->]. rewrite nth_upd_eq by lia. apply I3; try lia. unfold dn. lia. }
        rewrite nth_upd_ne by auto. apply I2; auto. unfold dn in *. assert (~ (r = R /\ c = C)) by (intros [-> ->]; auto).
        assert (~ (r = C /\ c = R)) by (intros [-> ->]; auto). lia.
      * intros r c Hr Hc D.
        assert (N1 : r * n + c <> R * n + C) by (intros X; apply INJ in X; try lia; destruct X as [-> ->]; apply D; unfold dn; lia).
        assert (N2 : r * n + c <> C * n + R) by (intros X; apply INJ in X; try lia; destruct X as [-> ->]; apply D; unfold dn; lia).
        rewrite !nth_upd_ne by auto. apply I3; auto. unfold dn in *. lia.
    + exists b'. split; [auto|]. destruct H as (I1 & I2 & I3). split; [auto|]. split.
      * intros r c Hr Hc D. destruct (Nat.eq_dec r c) as [->|Ne].
        { destruct (Nat.eq_dec c (S R)) as [->|]; [apply I3; auto; unfold dn; lia|]. apply I2; auto. unfold dn in *. lia. }
        apply I2; auto. unfold dn in *. lia.
      * intros r c Hr Hc D. apply I3; auto. unfold dn in *. lia.
  - exists a'. split; [auto|]. destruct H as (I1 & I2 & I3). split; [auto|]. intros r c Hr Hc. apply I2; auto. unfold dn. lia.
Qed.
Print Assumptions C36_transpose_dense.

Example C36_transpose_dense_example : transposeDense 3 [1; 2; 3; 4; 5; 6; 7; 8; 9] = Ok [1; 4; 7; 2; 5; 8; 3; 6; 9].
Proof. reflexivity. Qed.
