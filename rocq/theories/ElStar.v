(** Proofs about the star matrices. *)
From Coq Require Import List Arith Bool Lia Reals Lra Field QArith Nsatz.
From Verif Require Import Util MatMul MatSparse ElGen Elastic ElSpec ElWave ElFlux ElTrafo Props_MatSparse.
Import ListNotations.
Open Scope R_scope.

Notation starE2R := (starE2 0 1 Rplus Rminus Rmult Rdiv Ropp).
Notation starE3R := (starE3 0 1 Rplus Rminus Rmult Rdiv Ropp).
Notation starA2R := (starA2 0 1 Rplus Rmult Rdiv Ropp).
Notation starA3R := (starA3 0 1 Rplus Rmult Rdiv Ropp).

Ltac evs := cbv [starE2 starE3 starA2 starA3 addEntries lincomb mv sum map seq fold_left repeat upd nth Nat.mul Nat.add fst snd flux dot mk mkT pairs Nat.eqb app vel nSt length strain traction sig posOf delta unitv andb orb at1 two].

Ltac halves := repeat match goal with |- context [2 * ?a * (?b / 2)] => replace (2 * a * (b / 2)) with (a * b) by field end;
  repeat match goal with |- context [(?a + ?a) / 2] => replace ((a + a) / 2) with a by field end; replace (1 / (1 + 1)) with (/ 2) by field; unfold Rdiv.
Ltac gets G k L E := let H := fresh in assert (H := L k ltac:(lia)); destruct (G k) as [|? [|? [|? [|? [|? l]]]]] eqn:E; try discriminate; cbn in H;
  repeat (match type of H with context [length ?l] => destruct l; try discriminate end; cbn in H); clear H.

Lemma star2 m jac J G : rho m <> 0 ->
  (forall k k', (k < 2)%nat -> (k' < 2)%nat -> sum 2 (fun e => nth e (nth k jac []) 0 * J e k') = delta k k') -> (forall k, (k < 2)%nat -> length (G k) = 5%nat) ->
  lincomb 5 2 (fun _ => 1) (fun e => mv 5 5 (nth e (starE2R (rho m) (lam m) (mu m) jac) []) (lincomb 5 2 (J e) G)) = lincomb 5 2 (fun _ => 1) (fun k => flux 2 m (unitv k) (G k)).
Proof.
  intros RH I L. assert (I00 := I 0%nat 0%nat ltac:(lia) ltac:(lia)). assert (I01 := I 0%nat 1%nat ltac:(lia) ltac:(lia)). assert (I10 := I 1%nat 0%nat ltac:(lia) ltac:(lia)). assert (I11 := I 1%nat 1%nat ltac:(lia) ltac:(lia)). clear I.
  cbv [sum seq fold_left delta Nat.eqb] in I00, I01, I10, I11.
  gets G 0%nat L EG0. gets G 1%nat L EG1. clear L.
  unfold starE2. cbn [map seq].
  change (nth 0 (nth 0 jac []) 0) with (ji 0 jac 0 0) in *. generalize dependent (ji 0 jac 0 0). intros x00; intros.
  change (nth 1 (nth 0 jac []) 0) with (ji 0 jac 0 1) in *. generalize dependent (ji 0 jac 0 1). intros x01; intros.
  change (nth 0 (nth 1 jac []) 0) with (ji 0 jac 1 0) in *. generalize dependent (ji 0 jac 1 0). intros x10; intros.
  change (nth 1 (nth 1 jac []) 0) with (ji 0 jac 1 1) in *. generalize dependent (ji 0 jac 1 1). intros x11; intros.
  assert (K00 : x00 * J 0%nat 0%nat = 1 - x01 * J 1%nat 0%nat) by lra. clear I00.
  assert (K01 : x00 * J 0%nat 1%nat = 0 - x01 * J 1%nat 1%nat) by lra. clear I01.
  assert (K10 : x10 * J 0%nat 0%nat = 0 - x11 * J 1%nat 0%nat) by lra. clear I10.
  assert (K11 : x10 * J 0%nat 1%nat = 1 - x11 * J 1%nat 1%nat) by lra. clear I11.
  cbv [skipn]. evs. rewrite ?EG0, ?EG1. cbv [nth]. leq; halves; nsatz.
Qed.

Lemma starAn2 jac J G : (forall k k', (k < 2)%nat -> (k' < 2)%nat -> sum 2 (fun e => nth e (nth k jac []) 0 * J e k') = delta k k') -> (forall k, (k < 2)%nat -> length (G k) = 5%nat) ->
  lincomb 3 2 (fun _ => 1) (fun e => mv 3 2 (nth e (starA2R jac) []) (skipn 3 (lincomb 5 2 (J e) G))) = lincomb 3 2 (fun _ => 1) (fun k => mkT 2 (fun i j => - strain (vel 2 (G k)) (unitv k) i j)).
Proof.
  intros I L. assert (I00 := I 0%nat 0%nat ltac:(lia) ltac:(lia)). assert (I01 := I 0%nat 1%nat ltac:(lia) ltac:(lia)). assert (I10 := I 1%nat 0%nat ltac:(lia) ltac:(lia)). assert (I11 := I 1%nat 1%nat ltac:(lia) ltac:(lia)). clear I.
  cbv [sum seq fold_left delta Nat.eqb] in I00, I01, I10, I11.
  gets G 0%nat L EG0. gets G 1%nat L EG1. clear L.
  unfold starA2. cbn [map seq].
  change (nth 0 (nth 0 jac []) 0) with (ji 0 jac 0 0) in *. generalize dependent (ji 0 jac 0 0). intros x00; intros.
  change (nth 1 (nth 0 jac []) 0) with (ji 0 jac 0 1) in *. generalize dependent (ji 0 jac 0 1). intros x01; intros.
  change (nth 0 (nth 1 jac []) 0) with (ji 0 jac 1 0) in *. generalize dependent (ji 0 jac 1 0). intros x10; intros.
  change (nth 1 (nth 1 jac []) 0) with (ji 0 jac 1 1) in *. generalize dependent (ji 0 jac 1 1). intros x11; intros.
  assert (K00 : x00 * J 0%nat 0%nat = 1 - x01 * J 1%nat 0%nat) by lra. clear I00.
  assert (K01 : x00 * J 0%nat 1%nat = 0 - x01 * J 1%nat 1%nat) by lra. clear I01.
  assert (K10 : x10 * J 0%nat 0%nat = 0 - x11 * J 1%nat 0%nat) by lra. clear I10.
  assert (K11 : x10 * J 0%nat 1%nat = 1 - x11 * J 1%nat 1%nat) by lra. clear I11.
  cbv [skipn]. evs. rewrite ?EG0, ?EG1. cbv [nth]. leq; halves; nsatz.
Qed.

Lemma star3 m jac J G : rho m <> 0 ->
  (forall k k', (k < 3)%nat -> (k' < 3)%nat -> sum 3 (fun e => nth e (nth k jac []) 0 * J e k') = delta k k') -> (forall k, (k < 3)%nat -> length (G k) = 9%nat) ->
  lincomb 9 3 (fun _ => 1) (fun e => mv 9 9 (nth e (starE3R (rho m) (lam m) (mu m) jac) []) (lincomb 9 3 (J e) G)) = lincomb 9 3 (fun _ => 1) (fun k => flux 3 m (unitv k) (G k)).
Proof.
  intros RH I L. assert (I00 := I 0%nat 0%nat ltac:(lia) ltac:(lia)). assert (I01 := I 0%nat 1%nat ltac:(lia) ltac:(lia)). assert (I02 := I 0%nat 2%nat ltac:(lia) ltac:(lia)). assert (I10 := I 1%nat 0%nat ltac:(lia) ltac:(lia)). assert (I11 := I 1%nat 1%nat ltac:(lia) ltac:(lia)). assert (I12 := I 1%nat 2%nat ltac:(lia) ltac:(lia)). assert (I20 := I 2%nat 0%nat ltac:(lia) ltac:(lia)). assert (I21 := I 2%nat 1%nat ltac:(lia) ltac:(lia)). assert (I22 := I 2%nat 2%nat ltac:(lia) ltac:(lia)). clear I.
  cbv [sum seq fold_left delta Nat.eqb] in I00, I01, I02, I10, I11, I12, I20, I21, I22.
  gets G 0%nat L EG0. gets G 1%nat L EG1. gets G 2%nat L EG2. clear L.
  unfold starE3. cbn [map seq].
  change (nth 0 (nth 0 jac []) 0) with (ji 0 jac 0 0) in *. generalize dependent (ji 0 jac 0 0). intros x00; intros.
  change (nth 1 (nth 0 jac []) 0) with (ji 0 jac 0 1) in *. generalize dependent (ji 0 jac 0 1). intros x01; intros.
  change (nth 2 (nth 0 jac []) 0) with (ji 0 jac 0 2) in *. generalize dependent (ji 0 jac 0 2). intros x02; intros.
  change (nth 0 (nth 1 jac []) 0) with (ji 0 jac 1 0) in *. generalize dependent (ji 0 jac 1 0). intros x10; intros.
  change (nth 1 (nth 1 jac []) 0) with (ji 0 jac 1 1) in *. generalize dependent (ji 0 jac 1 1). intros x11; intros.
  change (nth 2 (nth 1 jac []) 0) with (ji 0 jac 1 2) in *. generalize dependent (ji 0 jac 1 2). intros x12; intros.
  change (nth 0 (nth 2 jac []) 0) with (ji 0 jac 2 0) in *. generalize dependent (ji 0 jac 2 0). intros x20; intros.
  change (nth 1 (nth 2 jac []) 0) with (ji 0 jac 2 1) in *. generalize dependent (ji 0 jac 2 1). intros x21; intros.
  change (nth 2 (nth 2 jac []) 0) with (ji 0 jac 2 2) in *. generalize dependent (ji 0 jac 2 2). intros x22; intros.
  assert (K00 : x00 * J 0%nat 0%nat = 1 - x01 * J 1%nat 0%nat - x02 * J 2%nat 0%nat) by lra. clear I00.
  assert (K01 : x00 * J 0%nat 1%nat = 0 - x01 * J 1%nat 1%nat - x02 * J 2%nat 1%nat) by lra. clear I01.
  assert (K02 : x00 * J 0%nat 2%nat = 0 - x01 * J 1%nat 2%nat - x02 * J 2%nat 2%nat) by lra. clear I02.
  assert (K10 : x10 * J 0%nat 0%nat = 0 - x11 * J 1%nat 0%nat - x12 * J 2%nat 0%nat) by lra. clear I10.
  assert (K11 : x10 * J 0%nat 1%nat = 1 - x11 * J 1%nat 1%nat - x12 * J 2%nat 1%nat) by lra. clear I11.
  assert (K12 : x10 * J 0%nat 2%nat = 0 - x11 * J 1%nat 2%nat - x12 * J 2%nat 2%nat) by lra. clear I12.
  assert (K20 : x20 * J 0%nat 0%nat = 0 - x21 * J 1%nat 0%nat - x22 * J 2%nat 0%nat) by lra. clear I20.
  assert (K21 : x20 * J 0%nat 1%nat = 0 - x21 * J 1%nat 1%nat - x22 * J 2%nat 1%nat) by lra. clear I21.
  assert (K22 : x20 * J 0%nat 2%nat = 1 - x21 * J 1%nat 2%nat - x22 * J 2%nat 2%nat) by lra. clear I22.
  cbv [skipn]. evs. rewrite ?EG0, ?EG1, ?EG2. cbv [nth]. leq; halves; nsatz.
Qed.

Lemma starAn3 jac J G : (forall k k', (k < 3)%nat -> (k' < 3)%nat -> sum 3 (fun e => nth e (nth k jac []) 0 * J e k') = delta k k') -> (forall k, (k < 3)%nat -> length (G k) = 9%nat) ->
  lincomb 6 3 (fun _ => 1) (fun e => mv 6 3 (nth e (starA3R jac) []) (skipn 6 (lincomb 9 3 (J e) G))) = lincomb 6 3 (fun _ => 1) (fun k => mkT 3 (fun i j => - strain (vel 3 (G k)) (unitv k) i j)).
Proof.
  intros I L. assert (I00 := I 0%nat 0%nat ltac:(lia) ltac:(lia)). assert (I01 := I 0%nat 1%nat ltac:(lia) ltac:(lia)). assert (I02 := I 0%nat 2%nat ltac:(lia) ltac:(lia)). assert (I10 := I 1%nat 0%nat ltac:(lia) ltac:(lia)). assert (I11 := I 1%nat 1%nat ltac:(lia) ltac:(lia)). assert (I12 := I 1%nat 2%nat ltac:(lia) ltac:(lia)). assert (I20 := I 2%nat 0%nat ltac:(lia) ltac:(lia)). assert (I21 := I 2%nat 1%nat ltac:(lia) ltac:(lia)). assert (I22 := I 2%nat 2%nat ltac:(lia) ltac:(lia)). clear I.
  cbv [sum seq fold_left delta Nat.eqb] in I00, I01, I02, I10, I11, I12, I20, I21, I22.
  gets G 0%nat L EG0. gets G 1%nat L EG1. gets G 2%nat L EG2. clear L.
  unfold starA3. cbn [map seq].
  change (nth 0 (nth 0 jac []) 0) with (ji 0 jac 0 0) in *. generalize dependent (ji 0 jac 0 0). intros x00; intros.
  change (nth 1 (nth 0 jac []) 0) with (ji 0 jac 0 1) in *. generalize dependent (ji 0 jac 0 1). intros x01; intros.
  change (nth 2 (nth 0 jac []) 0) with (ji 0 jac 0 2) in *. generalize dependent (ji 0 jac 0 2). intros x02; intros.
  change (nth 0 (nth 1 jac []) 0) with (ji 0 jac 1 0) in *. generalize dependent (ji 0 jac 1 0). intros x10; intros.
  change (nth 1 (nth 1 jac []) 0) with (ji 0 jac 1 1) in *. generalize dependent (ji 0 jac 1 1). intros x11; intros.
  change (nth 2 (nth 1 jac []) 0) with (ji 0 jac 1 2) in *. generalize dependent (ji 0 jac 1 2). intros x12; intros.
  change (nth 0 (nth 2 jac []) 0) with (ji 0 jac 2 0) in *. generalize dependent (ji 0 jac 2 0). intros x20; intros.
  change (nth 1 (nth 2 jac []) 0) with (ji 0 jac 2 1) in *. generalize dependent (ji 0 jac 2 1). intros x21; intros.
  change (nth 2 (nth 2 jac []) 0) with (ji 0 jac 2 2) in *. generalize dependent (ji 0 jac 2 2). intros x22; intros.
  assert (K00 : x00 * J 0%nat 0%nat = 1 - x01 * J 1%nat 0%nat - x02 * J 2%nat 0%nat) by lra. clear I00.
  assert (K01 : x00 * J 0%nat 1%nat = 0 - x01 * J 1%nat 1%nat - x02 * J 2%nat 1%nat) by lra. clear I01.
  assert (K02 : x00 * J 0%nat 2%nat = 0 - x01 * J 1%nat 2%nat - x02 * J 2%nat 2%nat) by lra. clear I02.
  assert (K10 : x10 * J 0%nat 0%nat = 0 - x11 * J 1%nat 0%nat - x12 * J 2%nat 0%nat) by lra. clear I10.
  assert (K11 : x10 * J 0%nat 1%nat = 1 - x11 * J 1%nat 1%nat - x12 * J 2%nat 1%nat) by lra. clear I11.
  assert (K12 : x10 * J 0%nat 2%nat = 0 - x11 * J 1%nat 2%nat - x12 * J 2%nat 2%nat) by lra. clear I12.
  assert (K20 : x20 * J 0%nat 0%nat = 0 - x21 * J 1%nat 0%nat - x22 * J 2%nat 0%nat) by lra. clear I20.
  assert (K21 : x20 * J 0%nat 1%nat = 0 - x21 * J 1%nat 1%nat - x22 * J 2%nat 1%nat) by lra. clear I21.
  assert (K22 : x20 * J 0%nat 2%nat = 1 - x21 * J 1%nat 2%nat - x22 * J 2%nat 2%nat) by lra. clear I22.
  cbv [skipn]. evs. rewrite ?EG0, ?EG1, ?EG2. cbv [nth]. leq; halves; nsatz.
Qed.

