(** Proofs about the rotation of coordinate systems. *)
From Coq Require Import List Arith Bool Lia Reals Lra Field Nsatz.
From Verif Require Import Util MatMul ElGen Elastic ElSpec ElWave ElFlux ElTrafo ElMid ElMid2 ElFace Fault FaultSpec.
From Verif Require Import Props_FwaveR.
Import ListNotations.
Open Scope R_scope.

Definition rotMatR (tol : R) : R * R * R -> R * R * R -> res (list R) := rotMat 0 1 Rplus Rminus Rmult Rdiv Ropp sqrt rltb tol.
Definition prefDirR (tol : R) := prefDir 0 Ropp rltb tol.
Definition ibCrds3R (tol : R) := ibCrds3 0 1 Rplus Rminus Rmult Rdiv Ropp sqrt rltb tol.

Lemma fabsR x : fabs 0 Ropp rltb x = Rabs x.
Proof. unfold fabs, rltb, Rabs. destruct (Rlt_dec x 0), (Rcase_abs x); try reflexivity; lra. Qed.

(** Rodrigues' formula with cross product c and k = 1 / (1 + cos) *)
Definition rodr (k cx cy cz : R) : list R :=
  [1 - k * (cy * cy + cz * cz); k * (cx * cy) - cz; k * (cx * cz) + cy;
   k * (cx * cy) + cz; 1 - k * (cx * cx + cz * cz); k * (cy * cz) - cx;
   k * (cx * cz) - cy; k * (cy * cz) + cx; 1 - k * (cx * cx + cy * cy)].

Lemma rodr_rotation k cx cy cz : 2 * k - 1 - k * k * (cx * cx + cy * cy + cz * cz) = 0 -> rotation (rodr k cx cy cz).
Proof.
  intros H. split; [reflexivity|]. split.
  - intros v w. cbv [applyM rodr ent dot sum seq fold_left nth Nat.mul Nat.add].
    generalize (v 0%nat) (v 1%nat) (v 2%nat) (w 0%nat) (w 1%nat) (w 2%nat). intros a b c x y z.
    pose (N := cx * cx + cy * cy + cz * cz).
    transitivity (0 + a * x + b * y + c * z + (2 * k - 1 - k * k * N) * ((cx * a + cy * b + cz * c) * (cx * x + cy * y + cz * z) - N * (a * x + b * y + c * z))); [unfold N; ring|]. unfold N. rewrite H. ring.
  - intros v w i Hi. pose (N := cx * cx + cy * cy + cz * cz).
    pose (U := cx * cross v w 0 + cy * cross v w 1 + cz * cross v w 2). pose (ci := match i with O => cx | S O => cy | _ => cz end).
    transitivity (cross (applyM (rodr k cx cy cz) v) (applyM (rodr k cx cy cz) w) i + (2 * k - 1 - k * k * N) * (U * ci)); [|unfold N; rewrite H; ring].
    unfold U, N, ci. clear H. destruct i as [|[|[|]]]; try lia; cbv [applyM rodr ent dot sum seq fold_left nth Nat.mul Nat.add cross]; ring.
Qed.

Lemma sqrt_dot v : sqrt (sprod3 Rplus Rmult v v) = norm 3 (co3 v).
Proof. destruct v as [[a b] c]. unfold norm, sprod3, dot, sum. cbn [fst snd seq fold_left co3]. f_equal. ring. Qed.
Lemma sprod_dot v w : sprod3 Rplus Rmult v w = dot 3 (co3 v) (co3 w).
Proof. destruct v as [[a b] c], w as [[x y] z]. unfold sprod3, dot, sum. cbn [fst snd seq fold_left co3]. ring. Qed.

Lemma rodr_turns v0 v1 : dot 3 (co3 v0) (co3 v0) = 1 -> dot 3 (co3 v1) (co3 v1) = 1 ->
  (let '(cx, cy, cz) := cross3 Rminus Rmult v0 v1 in let p := dot 3 (co3 v0) (co3 v1) in 1 + p <> 0 ->
   turns (rodr (1 / (1 + p)) cx cy cz) (co3 v0) (co3 v1)).
Proof.
  intros U V. destruct v0 as [[a b] c], v1 as [[x y] z]. cbn [cross3]. cbv zeta. intros D.
  assert (N0 : norm 3 (co3 (a, b, c)) = 1) by (unfold norm; rewrite U; apply sqrt_1).
  assert (N1 : norm 3 (co3 (x, y, z)) = 1) by (unfold norm; rewrite V; apply sqrt_1).
  set (p := dot 3 (co3 (a, b, c)) (co3 (x, y, z))) in *.
  assert (P : p = a * x + b * y + c * z) by (unfold p; cbv [dot sum seq fold_left co3 fst snd]; ring).
  assert (U' : a * a + b * b + c * c = 1) by (rewrite <- U; cbv [dot sum seq fold_left co3 fst snd]; ring).
  assert (V' : x * x + y * y + z * z = 1) by (rewrite <- V; cbv [dot sum seq fold_left co3 fst snd]; ring).
  set (cx := b * z - c * y). set (cy := c * x - a * z). set (cz := a * y - b * x).
  assert (C : cx * cx + cy * cy + cz * cz = 1 - p * p).
  { transitivity ((a * a + b * b + c * c) * (x * x + y * y + z * z) - (a * x + b * y + c * z) * (a * x + b * y + c * z)); [unfold cx, cy, cz; ring|]. rewrite U', V', P. ring. }
  split; [|split].
  - apply rodr_rotation. rewrite C. field. assumption.
  - rewrite N0, N1. set (k := 1 / (1 + p)). assert (K : k * (1 + p) = 1) by (unfold k; field; assumption).
    (* c x v0 = v1 - p v0, c (c v0) = 0 *)
    assert (O : cx * a + cy * b + cz * c = 0) by (unfold cx, cy, cz; ring).
    assert (X : cy * c - cz * b = x - p * a) by (transitivity (x * (a * a + b * b + c * c) - (a * x + b * y + c * z) * a); [unfold cy, cz; ring|rewrite U', P; ring]).
    assert (Y : cz * a - cx * c = y - p * b) by (transitivity (y * (a * a + b * b + c * c) - (a * x + b * y + c * z) * b); [unfold cx, cz; ring|rewrite U', P; ring]).
    assert (Z : cx * b - cy * a = z - p * c) by (transitivity (z * (a * a + b * b + c * c) - (a * x + b * y + c * z) * c); [unfold cx, cy; ring|rewrite U', P; ring]).
    intros i Hi. destruct i as [|[|[|]]]; try lia; cbv [applyM rodr ent dot sum seq fold_left nth Nat.mul Nat.add co3 fst snd]; rewrite !Rmult_1_l.
    + transitivity (a + (cy * c - cz * b) + k * (cx * (cx * a + cy * b + cz * c) - (cx * cx + cy * cy + cz * cz) * a)); [ring|]. rewrite O, C, X.
      transitivity (x + a * (1 - p) * (1 - k * (1 + p))); [ring|]. rewrite K. ring.
    + transitivity (b + (cz * a - cx * c) + k * (cy * (cx * a + cy * b + cz * c) - (cx * cx + cy * cy + cz * cz) * b)); [ring|]. rewrite O, C, Y.
      transitivity (y + b * (1 - p) * (1 - k * (1 + p))); [ring|]. rewrite K. ring.
    + transitivity (c + (cx * b - cy * a) + k * (cz * (cx * a + cy * b + cz * c) - (cx * cx + cy * cy + cz * cz) * c)); [ring|]. rewrite O, C, Z.
      transitivity (z + c * (1 - p) * (1 - k * (1 + p))); [ring|]. rewrite K. ring.
  - intros i Hi. destruct i as [|[|[|]]]; try lia; cbv [applyM rodr ent dot sum seq fold_left nth Nat.mul Nat.add co3 fst snd cross]; unfold cx, cy, cz; ring.
Qed.

Notation normalizeR := (normalize3 Rplus Rmult Rdiv sqrt).
Lemma rotMat_rodr tol v0 v1 : rotMatR tol v0 v1 =
  let u0 := normalizeR v0 in let u1 := normalizeR v1 in let p := dot 3 (co3 u0) (co3 u1) in
  if rltb tol (Rabs (p + 1)) then let '(cx, cy, cz) := cross3 Rminus Rmult u0 u1 in Ok (rodr (1 / (1 + p)) cx cy cz) else Er Echeck.
Proof.
  unfold rotMatR, rotMat. cbv zeta. rewrite !sprod_dot. set (u0 := normalizeR v0). set (u1 := normalizeR v1). set (p := dot 3 (co3 u0) (co3 u1)).
  destruct (cross3 Rminus Rmult u0 u1) as [[cx cy] cz]. rewrite fabsR. unfold check. destruct (rltb tol (Rabs (p + 1))); cbn [bind]; [|reflexivity].
  f_equal. cbv [flat_map map seq fold_left nth Nat.mul Nat.add app Nat.eqb orb rodr]. generalize (1 / (1 + p)). intros k. leq; ring.
Qed.

Lemma normalize_unit v : 0 < norm 3 (co3 v) -> dot 3 (co3 (normalizeR v)) (co3 (normalizeR v)) = 1 /\ forall i, co3 v i = norm 3 (co3 v) * co3 (normalizeR v) i.
Proof.
  intros P. assert (Q : norm 3 (co3 v) * norm 3 (co3 v) = dot 3 (co3 v) (co3 v)) by (unfold norm; apply sqrt_sqrt, dot_self).
  unfold normalize3. rewrite (sqrt_dot v : norm3 Rplus Rmult sqrt v = _). set (m := norm 3 (co3 v)) in *. destruct v as [[a b] c]. cbn [fst snd]. split.
  - assert (E : dot 3 (co3 (a / m, b / m, c / m)) (co3 (a / m, b / m, c / m)) = dot 3 (co3 (a, b, c)) (co3 (a, b, c)) / (m * m)) by (cbv [dot sum seq fold_left co3 fst snd]; field; lra).
    rewrite E, <- Q. field. lra.
  - intros i. destruct i as [|[|[|]]]; cbv [co3 fst snd]; try ring; field; lra.
Qed.
Lemma normalize_id v : dot 3 (co3 v) (co3 v) = 1 -> normalizeR v = v.
Proof.
  intros U. unfold normalize3. rewrite (sqrt_dot v : norm3 Rplus Rmult sqrt v = _). unfold norm. rewrite U, sqrt_1. destruct v as [[a b] c]. cbn [fst snd]. unfold Rdiv. rewrite Rinv_1, !Rmult_1_r. reflexivity.
Qed.

Lemma applyM_scal r c v v' i : (forall i, v i = c * v' i) -> applyM r v i = c * applyM r v' i.
Proof. intros H. unfold applyM. rewrite <- sum_scal. apply sum_ext. intros. rewrite H. ring. Qed.
Lemma cross_scal a b v w v' w' i : (forall i, v i = a * v' i) -> (forall i, w i = b * w' i) -> cross v w i = a * b * cross v' w' i.
Proof. intros H K. unfold cross. rewrite !H, !K. destruct i as [|[|]]; ring. Qed.

Lemma rotMat_turns tol v0 v1 rm : 0 <= tol -> 0 < norm 3 (co3 v0) -> 0 < norm 3 (co3 v1) -> rotMatR tol v0 v1 = Ok rm -> turns rm (co3 v0) (co3 v1).
Proof.
  intros T A B. rewrite rotMat_rodr. cbv zeta. destruct (normalize_unit v0 A) as (U0 & N0). destruct (normalize_unit v1 B) as (U1 & N1).
  set (u0 := normalizeR v0) in *. set (u1 := normalizeR v1) in *. pose proof (rodr_turns u0 u1 U0 U1) as K.
  destruct (cross3 Rminus Rmult u0 u1) as [[cx cy] cz]. cbv zeta in K. destruct (rltb tol (Rabs (dot 3 (co3 u0) (co3 u1) + 1))) eqn:E; [|discriminate].
  intros X. injection X as <-. apply rltb_lt in E. destruct K as (R1 & R2 & R3). { intros Z. rewrite Rplus_comm, Z, Rabs_R0 in E. lra. }
  split; [assumption|]. assert (M0 : norm 3 (co3 u0) = 1) by (unfold norm; rewrite U0; apply sqrt_1). assert (M1 : norm 3 (co3 u1) = 1) by (unfold norm; rewrite U1; apply sqrt_1).
  rewrite M0, M1 in R2. split; intros i Hi.
  - rewrite (applyM_scal _ _ _ _ i N0), (N1 i). specialize (R2 i Hi). rewrite !Rmult_1_l in R2. rewrite R2. ring.
  - rewrite (applyM_scal _ (norm 3 (co3 v0) * norm 3 (co3 v1)) (cross (co3 v0) (co3 v1)) (cross (co3 u0) (co3 u1))) by (intros; apply cross_scal; assumption).
    rewrite R3 by assumption. symmetry. apply cross_scal; assumption.
Qed.

(** ** Coordinate systems of faces *)
Lemma app_v3 r v : length r = 9%nat -> co3 (v3 0 (mulV 0 Rplus Rmult 3 3 r (l3 v))) = fun i => match i with O => applyM r (co3 v) 0 | S O => applyM r (co3 v) 1 | S (S O) => applyM r (co3 v) 2 | _ => 0 end.
Proof. destruct v as [[a b] c]. intros _. reflexivity. Qed.
Lemma app_v3_i r v i : length r = 9%nat -> (i < 3)%nat -> co3 (v3 0 (mulV 0 Rplus Rmult 3 3 r (l3 v))) i = applyM r (co3 v) i.
Proof. intros L Hi. rewrite (app_v3 r v L). destruct i as [|[|[|]]]; try lia; reflexivity. Qed.
Lemma ortho_dots n s t : orthonormal n s t <-> dot 3 (co3 n) (co3 n) = 1 /\ dot 3 (co3 s) (co3 s) = 1 /\ dot 3 (co3 t) (co3 t) = 1 /\ dot 3 (co3 n) (co3 s) = 0 /\ dot 3 (co3 n) (co3 t) = 0 /\ dot 3 (co3 s) (co3 t) = 0.
Proof. unfold orthonormal. rewrite <- !sprod_dot. unfold sprod3. reflexivity. Qed.
Lemma co3_inj a b : (forall i, (i < 3)%nat -> co3 a i = co3 b i) -> a = b.
Proof. destruct a as [[? ?] ?], b as [[? ?] ?]. intros H. pose proof (H 0%nat ltac:(lia)). pose proof (H 1%nat ltac:(lia)). pose proof (H 2%nat ltac:(lia)). cbn [co3 fst snd] in *. congruence. Qed.

Definition flip (pref : bool) (n : R * R * R) : R * R * R := if pref then n else vopp Ropp n.

Lemma crds3_ok tol b0 b1 b2 n s t : 0 < tol -> orthonormal b0 b1 b2 -> dot 3 (co3 n) (co3 n) = 1 -> tol < Rabs (dot 3 (co3 b0) (co3 n)) ->
  let pref := rltb 0 (dot 3 (co3 b0) (co3 n)) in
  exists rm s' t', ibCrds3R tol (Some (b0, b1, b2)) n s t = Ok (pref, (flip pref n, s', t')) /\ orthonormal (flip pref n) s' t' /\ turns rm (co3 b0) (co3 (flip pref n)) /\
    (forall i, (i < 3)%nat -> co3 s' i = applyM rm (co3 b1) i /\ co3 t' i = applyM rm (co3 b2) i).
Proof.
  intros T O U P. cbv zeta. set (p := dot 3 (co3 b0) (co3 n)) in *. set (pref := rltb 0 p).
  assert (U' : dot 3 (co3 (flip pref n)) (co3 (flip pref n)) = 1).
  { unfold flip. destruct pref; [assumption|]. rewrite <- (dot_ext 3 (neg (co3 n)) (neg (co3 n))) by (intros; apply co3_neg; assumption). now rewrite dot_neg2. }
  assert (Q : dot 3 (co3 b0) (co3 (flip pref n)) = Rabs p).
  { unfold flip, pref, rltb. destruct (Rlt_dec 0 p); [symmetry; apply Rabs_right; unfold p in *; lra|]. rewrite <- (dot_ext 3 (co3 b0) (neg (co3 n))) by (auto; intros; apply co3_neg; assumption).
    rewrite dot_neg. fold p. rewrite Rabs_left1 by lra. reflexivity. }
  apply ortho_dots in O as (B0 & B1 & B2 & B01 & B02 & B12).
  assert (Nb0 : norm 3 (co3 b0) = 1) by (unfold norm; rewrite B0; apply sqrt_1). assert (Nn : norm 3 (co3 (flip pref n)) = 1) by (unfold norm; rewrite U'; apply sqrt_1).
  assert (E : exists rm, rotMatR tol b0 (flip pref n) = Ok rm).
  { rewrite rotMat_rodr. cbv zeta. rewrite !normalize_id by assumption. rewrite Q. rewrite rltb_true. { destruct (cross3 _ _ _ _) as [[? ?] ?]. eauto. }
    pose proof (Rabs_pos p). rewrite Rabs_right by lra. lra. }
  destruct E as (rm & E). pose proof (rotMat_turns tol b0 (flip pref n) rm ltac:(lra) ltac:(lra) ltac:(lra) E) as Tu. pose proof Tu as ((L9 & RD & _) & R2 & _). rewrite Nb0, Nn in R2.
  set (s' := v3 0 (mulV 0 Rplus Rmult 3 3 rm (l3 b1))). set (t' := v3 0 (mulV 0 Rplus Rmult 3 3 rm (l3 b2))).
  assert (S' : forall i, (i < 3)%nat -> co3 s' i = applyM rm (co3 b1) i) by (intros; apply app_v3_i; assumption).
  assert (T' : forall i, (i < 3)%nat -> co3 t' i = applyM rm (co3 b2) i) by (intros; apply app_v3_i; assumption).
  assert (N' : forall i, (i < 3)%nat -> co3 (flip pref n) i = applyM rm (co3 b0) i) by (intros i Hi; rewrite <- (Rmult_1_l (co3 _ i)), <- R2 by assumption; ring).
  assert (O' : orthonormal (flip pref n) s' t').
  { apply ortho_dots. split; [assumption|].
    rewrite (dot_ext 3 (co3 s') (co3 s') (applyM rm (co3 b1)) (applyM rm (co3 b1))), (dot_ext 3 (co3 t') (co3 t') (applyM rm (co3 b2)) (applyM rm (co3 b2))),
      (dot_ext 3 (co3 (flip pref n)) (co3 s') (applyM rm (co3 b0)) (applyM rm (co3 b1))), (dot_ext 3 (co3 (flip pref n)) (co3 t') (applyM rm (co3 b0)) (applyM rm (co3 b2))),
      (dot_ext 3 (co3 s') (co3 t') (applyM rm (co3 b1)) (applyM rm (co3 b2))) by assumption. rewrite !RD. auto. }
  exists rm, s', t'. split; [|auto].
  unfold ibCrds3R, ibCrds3. rewrite sprod_dot. fold p. unfold prefDir. rewrite fabsR. rewrite (rltb_true tol (Rabs p)) by assumption. cbn [check bind]. fold pref.
  assert (F : forall x, x * - (1) = - x) by (intros; ring). destruct n as [[nx ny] nz]. unfold rotMatR in E. unfold vopp. cbn [fst snd]. rewrite !F.
  match goal with |- bind (rotMat _ _ _ _ _ _ _ _ _ _ _ ?x) _ = _ => change x with (flip pref (nx, ny, nz)) end. rewrite E. cbn [bind]. cbv zeta. fold s' t'. apply ortho_dots in O' as (O1 & O2 & O3 & O4 & O5 & O6).
  assert (NN : forall v, dot 3 (co3 v) (co3 v) = 1 -> norm3 Rplus Rmult sqrt v - 1 = 0). { intros v H. rewrite (sqrt_dot v : norm3 Rplus Rmult sqrt v = _). unfold norm. rewrite H, sqrt_1. ring. }
  rewrite !sprod_dot, O4, O5, O6, !NN by assumption. rewrite fabsR, Rabs_R0, (rltb_true 0 tol) by assumption. reflexivity.
Qed.
