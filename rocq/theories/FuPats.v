(** The patterns of the kernels for fused simulations and the values of the sparse star and source matrices and of the flux solvers. *)
From Coq Require Import QArith Qcanon Ring.
From Verif Require Import Util MeshConn MatMul MatSparse Props_MatSparse Ader AderSpec Elastic ElSpec ElCsr Props_Elastic MmXsmm XsmmSpec FakeMats CscV FuSpec.
Open Scope nat_scope.

(** *** Checks of a pattern *)
Definition okPat (m lo hi : nat) (p : list nat * list nat) : bool :=
  (length (fst p) =? S m) && forallb (fun i => nth i (fst p) 0 <=? nth (S i) (fst p) 0) (seq 0 m) && (nth m (fst p) 0 =? length (snd p)) &&
  forallb (fun c => (lo <=? c) && (c <? hi)) (snd p).
Definition noEmpty (m : nat) (p : list nat * list nat) : bool := forallb (fun i => negb (nth i (fst p) 0 =? nth (S i) (fst p) 0)) (seq 0 m).
Lemma noEmpty_ok m p : noEmpty m p = true -> noEmptyRow p m.
Proof.
  intros H r Hr E. unfold noEmpty in H. rewrite forallb_forall in H. specialize (H r ltac:(apply in_seq; lia)). unfold noEntry in E. rewrite E, Nat.eqb_refl in H. discriminate.
Qed.

Section Gen.
Context {T : Type}.
Variable A : alg T.
Local Notation zero := (aZero A).

Lemma represents_compressed {U} m n sh v (s : comp U) a : okPat m sh (sh + n) (cPtr s, cIdx s) = true -> represents zero m n sh v s a -> compressed A (cPtr s, cIdx s) m n sh v a.
Proof.
  intros Hp (Lv & V). unfold okPat in Hp. cbn [fst snd] in Hp. rewrite !andb_true_iff in Hp. destruct Hp as (((H1 & H2) & H3) & H4). apply Nat.eqb_eq in H1, H3.
  rewrite forallb_forall in H2, H4.
  assert (M : forall i, i < m -> nth i (cPtr s) 0 <= nth (S i) (cPtr s) 0) by (intros i Hi; apply Nat.leb_le; apply H2; apply in_seq; lia).
  assert (I : forall p, p < nth m (cPtr s) 0 -> sh <= nth p (cIdx s) 0 < sh + n).
  { intros p Hp. specialize (H4 (nth p (cIdx s) 0) ltac:(apply nth_In; lia)). apply andb_true_iff in H4. destruct H4 as [X Y]. apply Nat.leb_le in X. apply Nat.ltb_lt in Y. lia. }
  split; cbn [fst snd].
  - split; [auto|]. split; [exact M|]. split; [lia|]. split; [lia|]. intros p Hp. apply I. auto.
  - intros c r Hc Hr. destruct (Nat.ltb_spec r sh) as [Lt|Ge].
    + right. split; [|reflexivity]. unfold rowVals. assert (F : filter (fun p => nth p (cIdx s) 0 =? r) (seq (nth c (cPtr s) 0) (nth (S c) (cPtr s) 0 - nth c (cPtr s) 0)) = []).
      { assert (X := ptr_mono (cPtr s) m M (S c) Hc). assert (G : forall n a, a + n <= nth m (cPtr s) 0 -> filter (fun p => nth p (cIdx s) 0 =? r) (seq a n) = []).
        { intros k. induction k as [|k IH]; intros b Hb; cbn; [reflexivity|]. destruct (Nat.eqb_spec (nth b (cIdx s) 0) r) as [E|E]; [specialize (I b ltac:(lia)); lia|]. apply IH. lia. }
        apply G. specialize (M c Hc). lia. }
      now rewrite F.
    + specialize (V c (r - sh) Hc ltac:(lia)). cbv zeta in V. replace (sh + (r - sh)) with r in V by lia. rewrite (csr_at A) in V. cbn [cPtr cIdx cVal] in V. rewrite (proj2 (Nat.ltb_lt _ _) Hc) in V. exact V.
Qed.

(** full patterns *)
Definition fullPat (m n : nat) : list nat * list nat := (map (fun i => i * n) (seq 0 (S m)), concat (repeat (seq 0 n) m)).
Ltac cases := repeat match goal with H : ?r < S _ |- _ => destruct r as [|r]; [|apply Nat.succ_lt_mono in H] | H : _ < 0 |- _ => inversion H end.
Lemma full_compressed nDim f : nDim = 2 \/ nDim = 3 ->
  (forall n, n = (if nDim =? 2 then 5 else 9) -> length f = n * n -> compressed A (fullPat n n) n n 0 f f) /\
  (forall m n, m = (if nDim =? 2 then 3 else 6) -> n = (if nDim =? 2 then 5 else 9) -> length f = m * n -> compressed A (fullPat m n) m n 0 f f).
Proof.
  intros D. assert (G : forall m n, (m, n) = (5, 5) \/ (m, n) = (3, 5) \/ (m, n) = (9, 9) \/ (m, n) = (6, 9) -> length f = m * n -> compressed A (fullPat m n) m n 0 f f).
  { intros m n H Lf. assert (R : represents zero m n 0 f (@Build_comp unit [] (fst (fullPat m n)) (snd (fullPat m n))) f).
    { split; [rewrite Lf; destruct H as [[= -> ->]|[[= -> ->]|[[= -> ->]|[= -> ->]]]]; reflexivity|]. intros r c Hr Hc. left. rewrite (csr_at A). cbn [cPtr cIdx cVal]. rewrite (proj2 (Nat.ltb_lt _ _) Hr).
      unfold rowVals. assert (F : filter (fun p => nth p (snd (fullPat m n)) 0 =? 0 + c) (seq (nth r (fst (fullPat m n)) 0) (nth (S r) (fst (fullPat m n)) 0 - nth r (fst (fullPat m n)) 0)) = [r * n + c]).
      { clear Lf. destruct H as [[= -> ->]|[[= -> ->]|[[= -> ->]|[= -> ->]]]]; cases; reflexivity. }
      rewrite F. reflexivity. }
    apply represents_compressed in R; [exact R|]. clear R Lf. destruct H as [[= -> ->]|[[= -> ->]|[[= -> ->]|[= -> ->]]]]; reflexivity. }
  split.
  - intros n -> Lf. apply G; [|auto]. destruct D as [-> | ->]; auto.
  - intros m n -> -> Lf. apply G; [|auto]. destruct D as [-> | ->]; auto.
Qed.

Lemma src_represents nDim n0 n1 n2 s : nDim = 2 \/ nDim = 3 -> srcCsrA nDim = Ok s ->
  let nM := if nDim =? 2 then 3 else 6 in represents zero nM nM 0 (srcSp zero nDim (srcDense zero nDim n0 n1 n2)) s (srcDense zero nDim n0 n1 n2).
Proof.
  intros D E. assert (G : exists p q, cPtr s = p /\ cIdx s = q /\ (p, q) = if nDim =? 2 then ([0;2;4;5], [0;1;0;1;2]) else ([0;3;6;9;10;11;12], [0;1;2;0;1;2;0;1;2;3;4;5])).
  { exists (cPtr s), (cIdx s). split; [auto|]. split; [auto|]. destruct D as [-> | ->]; vm_compute in E; injection E as <-; reflexivity. }
  destruct G as (p & q & Ep & Eq & G). destruct s as [w p' q']. cbn in Ep, Eq. subst p' q'. clear E.
  destruct D as [-> | ->]; cbn in G; injection G as -> ->; (split; [reflexivity|]); intros r c Hr Hc; cbn in Hr, Hc; cases; cbv zeta; first [left; reflexivity | right; split; reflexivity].
Qed.
End Gen.

(** *** The patterns *)
Lemma pats2 : fakePats 2 = Ok {| pE := ([0; 2; 4; 6; 8; 10], idxE2); pA := ([0; 1; 2; 4], idxA2); pS := ([0; 2; 4; 5], [0; 1; 0; 1; 2]); pFE := fullPat 5 5; pFA := fullPat 3 5 |}.
Proof. vm_compute. reflexivity. Qed.
Lemma pats3 : fakePats 3 = Ok {| pE := ([0; 3; 6; 9; 11; 13; 15; 18; 21; 24], idxE3); pA := ([0; 1; 2; 3; 5; 7; 9], idxA3);
  pS := ([0; 3; 6; 9; 10; 11; 12], [0; 1; 2; 0; 1; 2; 0; 1; 2; 3; 4; 5]); pFE := fullPat 9 9; pFA := fullPat 6 9 |}.
Proof. vm_compute. reflexivity. Qed.
Lemma srcPat2 : exists v, srcCsrA 2 = Ok {| cVal := v; cPtr := [0; 2; 4; 5]; cIdx := [0; 1; 0; 1; 2] |}.
Proof. vm_compute. eexists. reflexivity. Qed.
Lemma srcPat3 : exists v, srcCsrA 3 = Ok {| cVal := v; cPtr := [0; 3; 6; 9; 10; 11; 12]; cIdx := [0; 1; 2; 0; 1; 2; 0; 1; 2; 3; 4; 5] |}.
Proof. vm_compute. eexists. reflexivity. Qed.
