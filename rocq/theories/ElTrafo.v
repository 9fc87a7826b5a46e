(** Proofs about the transformations to and from face-aligned coordinates and about the contributions of both sides in these coordinates. *)
From Coq Require Import List Arith Bool Lia Reals Lra Field.
From Verif Require Import Util MatMul ElGen Elastic ElSpec ElWave ElFlux.
Import ListNotations.
Open Scope R_scope.

Definition pow15R (x : R) : R := x * sqrt x.
Notation trafo3R := (trafo3 0 1 Rplus Rmult).
Notation trafoInv3R := (trafoInv3 0 1 Rplus Rminus Rmult Rdiv Ropp).
Notation trafo2R := (trafo2 0 1 Rplus Rminus Rmult Ropp).
Notation trafoInv2R := (trafoInv2 0 1 Rplus Rminus Rmult Ropp).

Ltac evm := cbv [mv sum map seq fold_left nth Nat.mul Nat.add].
Ltac q9 q L := cbn in L; do 9 (destruct q as [|? q]; [discriminate|]); destruct q; [|discriminate].
Ltac q5 q L := cbn in L; do 5 (destruct q as [|? q]; [discriminate|]); destruct q; [|discriminate].
Ltac leq := repeat match goal with |- cons _ _ = cons _ _ => apply f_equal2 | |- nil = nil => reflexivity end.

(** determinant of the frame with columns n, s, t *)
Definition det9 (nx ny nz sx sy sz tx ty tz : R) : R := nx * (sy * tz - sz * ty) - ny * (sx * tz - sz * tx) + nz * (sx * ty - sy * tx).

(** the inverse transformation is the transformation of the inverse matrix *)
Lemma inv3_trafo nx ny nz sx sy sz tx ty tz : let D := det9 nx ny nz sx sy sz tx ty tz in D <> 0 ->
  trafoInv3R nx ny nz sx sy sz tx ty tz = trafo3R ((sy * tz - sz * ty) / D) ((nz * ty - ny * tz) / D) ((ny * sz - nz * sy) / D)
    ((sz * tx - sx * tz) / D) ((nx * tz - nz * tx) / D) ((nz * sx - nx * sz) / D) ((sx * ty - sy * tx) / D) ((ny * tx - nx * ty) / D) ((nx * sy - ny * sx) / D).
Proof.
  intros D ND. unfold trafoInv3, trafo3, sq, two.
  replace (nz * sy * tx - ny * sz * tx - nz * sx * ty + nx * sz * ty + ny * sx * tz - nx * sy * tz) with (- D) by (unfold D, det9; ring).
  replace (- (nz * sy * tx) + ny * sz * tx + nz * sx * ty - nx * sz * ty - ny * sx * tz + nx * sy * tz) with D by (unfold D, det9; ring).
  clearbody D. leq; try reflexivity; field; try exact ND; repeat split; try exact ND; lra.
Qed.

(** transformation by a 3x3 matrix, given by its columns *)
Lemma trafo3_compose a0 a1 a2 b0 b1 b2 c0 c1 c2 x0 x1 x2 y0 y1 y2 z0 z1 z2 q : length q = 9%nat ->
  mv 9 9 (trafo3R a0 a1 a2 b0 b1 b2 c0 c1 c2) (mv 9 9 (trafo3R x0 x1 x2 y0 y1 y2 z0 z1 z2) q) =
  mv 9 9 (trafo3R (a0 * x0 + b0 * x1 + c0 * x2) (a1 * x0 + b1 * x1 + c1 * x2) (a2 * x0 + b2 * x1 + c2 * x2) (a0 * y0 + b0 * y1 + c0 * y2) (a1 * y0 + b1 * y1 + c1 * y2) (a2 * y0 + b2 * y1 + c2 * y2)
    (a0 * z0 + b0 * z1 + c0 * z2) (a1 * z0 + b1 * z1 + c1 * z2) (a2 * z0 + b2 * z1 + c2 * z2)) q.
Proof. intros L. q9 q L. unfold trafo3, sq, two. evm. leq; ring. Qed.

Lemma trafo3_id q : length q = 9%nat -> mv 9 9 (trafo3R 1 0 0 0 1 0 0 0 1) q = q.
Proof. intros L. q9 q L. unfold trafo3, sq, two. evm. leq; ring. Qed.

Lemma trafo3_inverse nx ny nz sx sy sz tx ty tz q : det9 nx ny nz sx sy sz tx ty tz <> 0 -> length q = 9%nat ->
  mv 9 9 (trafo3R nx ny nz sx sy sz tx ty tz) (mv 9 9 (trafoInv3R nx ny nz sx sy sz tx ty tz) q) = q /\
  mv 9 9 (trafoInv3R nx ny nz sx sy sz tx ty tz) (mv 9 9 (trafo3R nx ny nz sx sy sz tx ty tz) q) = q.
Proof.
  intros ND L. rewrite inv3_trafo by exact ND. rewrite !trafo3_compose by exact L.
  split; (transitivity (mv 9 9 (trafo3R 1 0 0 0 1 0 0 0 1) q); [f_equal; f_equal; unfold det9 in *; field; exact ND|apply trafo3_id, L]).
Qed.

Lemma trafo3_rotates n s t q : length q = 9%nat ->
  let q' := mv 9 9 (trafo3R (co3 n 0) (co3 n 1) (co3 n 2) (co3 s 0) (co3 s 1) (co3 s 2) (co3 t 0) (co3 t 1) (co3 t 2)) q in
  (forall i j, (i < 3)%nat -> (j < 3)%nat -> sig 3 q' i j = sum 3 (fun k => sum 3 (fun l => frame3 n s t i k * frame3 n s t j l * sig 3 q k l))) /\
  (forall i, (i < 3)%nat -> vel 3 q' i = sum 3 (fun k => frame3 n s t i k * vel 3 q k)).
Proof.
  intros L. destruct n as ((nx & ny) & nz). destruct s as ((sx & sy) & sz). destruct t as ((tx & ty) & tz). q9 q L. cbv zeta. split.
  - intros i j Hi Hj. destruct i as [|[|[|]]]; try lia; destruct j as [|[|[|]]]; try lia; cbv [sig vel posOf pairs nSt length Nat.eqb andb orb co3 fst snd frame3 trafo3 sq two mv sum map seq fold_left nth Nat.mul Nat.add]; ring.
  - intros i Hi. destruct i as [|[|[|]]]; try lia; cbv [sig vel posOf pairs nSt length Nat.eqb andb orb co3 fst snd frame3 trafo3 sq two mv sum map seq fold_left nth Nat.mul Nat.add]; ring.
Qed.

(** ** Orthonormal frames *)
Lemma ortho_det nx ny nz sx sy sz tx ty tz : orthonormal (nx, ny, nz) (sx, sy, sz) (tx, ty, tz) -> let D := det9 nx ny nz sx sy sz tx ty tz in D * D = 1 /\ D <> 0.
Proof.
  intros O D. cbv [orthonormal fst snd] in O. destruct O as (A & B & C & E & F & G).
  assert (X : D * D = (nx * nx + ny * ny + nz * nz) * ((sx * sx + sy * sy + sz * sz) * (tx * tx + ty * ty + tz * tz) - (sx * tx + sy * ty + sz * tz) * (sx * tx + sy * ty + sz * tz))
    - (nx * sx + ny * sy + nz * sz) * ((nx * sx + ny * sy + nz * sz) * (tx * tx + ty * ty + tz * tz) - (sx * tx + sy * ty + sz * tz) * (nx * tx + ny * ty + nz * tz))
    + (nx * tx + ny * ty + nz * tz) * ((nx * sx + ny * sy + nz * sz) * (sx * tx + sy * ty + sz * tz) - (sx * sx + sy * sy + sz * sz) * (nx * tx + ny * ty + nz * tz))) by (unfold D, det9; ring).
  rewrite A, B, C, E, F, G in X. split; [lra|]. intros Z. rewrite Z in X. lra.
Qed.

Lemma ortho_inverse nx ny nz sx sy sz tx ty tz : orthonormal (nx, ny, nz) (sx, sy, sz) (tx, ty, tz) ->
  trafoInv3R nx ny nz sx sy sz tx ty tz = trafo3R nx sx tx ny sy ty nz sz tz /\
  (nx * nx + sx * sx + tx * tx = 1 /\ ny * ny + sy * sy + ty * ty = 1 /\ nz * nz + sz * sz + tz * tz = 1 /\ nx * ny + sx * sy + tx * ty = 0 /\ ny * nz + sy * sz + ty * tz = 0 /\ nx * nz + sx * sz + tx * tz = 0).
Proof.
  intros O. destruct (ortho_det _ _ _ _ _ _ _ _ _ O) as (DD & ND). set (D := det9 nx ny nz sx sy sz tx ty tz) in *. cbv [orthonormal fst snd] in O. destruct O as (A & B & C & E & F & G).
  assert (K : forall a b, a * D = b -> b / D = a) by (intros a b H; rewrite <- H; field; exact ND).
  assert (C00 : (sy * tz - sz * ty) / D = nx) by (apply K; transitivity ((nx * nx + ny * ny + nz * nz) * (sy * tz - sz * ty) + (nx * sx + ny * sy + nz * sz) * (nz * ty - ny * tz) + (nx * tx + ny * ty + nz * tz) * (ny * sz - nz * sy)); [unfold D, det9; ring|rewrite A, E, F; ring]).
  assert (C10 : (nz * ty - ny * tz) / D = sx) by (apply K; transitivity ((nx * sx + ny * sy + nz * sz) * (sy * tz - sz * ty) + (sx * sx + sy * sy + sz * sz) * (nz * ty - ny * tz) + (sx * tx + sy * ty + sz * tz) * (ny * sz - nz * sy)); [unfold D, det9; ring|rewrite B, E, G; ring]).
  assert (C20 : (ny * sz - nz * sy) / D = tx) by (apply K; transitivity ((nx * tx + ny * ty + nz * tz) * (sy * tz - sz * ty) + (sx * tx + sy * ty + sz * tz) * (nz * ty - ny * tz) + (tx * tx + ty * ty + tz * tz) * (ny * sz - nz * sy)); [unfold D, det9; ring|rewrite C, F, G; ring]).
  assert (C01 : (sz * tx - sx * tz) / D = ny) by (apply K; transitivity ((nx * nx + ny * ny + nz * nz) * (sz * tx - sx * tz) + (nx * sx + ny * sy + nz * sz) * (nx * tz - nz * tx) + (nx * tx + ny * ty + nz * tz) * (nz * sx - nx * sz)); [unfold D, det9; ring|rewrite A, E, F; ring]).
  assert (C11 : (nx * tz - nz * tx) / D = sy) by (apply K; transitivity ((nx * sx + ny * sy + nz * sz) * (sz * tx - sx * tz) + (sx * sx + sy * sy + sz * sz) * (nx * tz - nz * tx) + (sx * tx + sy * ty + sz * tz) * (nz * sx - nx * sz)); [unfold D, det9; ring|rewrite B, E, G; ring]).
  assert (C21 : (nz * sx - nx * sz) / D = ty) by (apply K; transitivity ((nx * tx + ny * ty + nz * tz) * (sz * tx - sx * tz) + (sx * tx + sy * ty + sz * tz) * (nx * tz - nz * tx) + (tx * tx + ty * ty + tz * tz) * (nz * sx - nx * sz)); [unfold D, det9; ring|rewrite C, F, G; ring]).
  assert (C02 : (sx * ty - sy * tx) / D = nz) by (apply K; transitivity ((nx * nx + ny * ny + nz * nz) * (sx * ty - sy * tx) + (nx * sx + ny * sy + nz * sz) * (ny * tx - nx * ty) + (nx * tx + ny * ty + nz * tz) * (nx * sy - ny * sx)); [unfold D, det9; ring|rewrite A, E, F; ring]).
  assert (C12 : (ny * tx - nx * ty) / D = sz) by (apply K; transitivity ((nx * sx + ny * sy + nz * sz) * (sx * ty - sy * tx) + (sx * sx + sy * sy + sz * sz) * (ny * tx - nx * ty) + (sx * tx + sy * ty + sz * tz) * (nx * sy - ny * sx)); [unfold D, det9; ring|rewrite B, E, G; ring]).
  assert (C22 : (nx * sy - ny * sx) / D = tz) by (apply K; transitivity ((nx * tx + ny * ty + nz * tz) * (sx * ty - sy * tx) + (sx * tx + sy * ty + sz * tz) * (ny * tx - nx * ty) + (tx * tx + ty * ty + tz * tz) * (nx * sy - ny * sx)); [unfold D, det9; ring|rewrite C, F, G; ring]).
  split.
  - rewrite inv3_trafo by exact ND. cbv zeta. fold D. rewrite C00, C10, C20, C01, C11, C21, C02, C12, C22. reflexivity.
  - repeat split.
    + rewrite <- C00 at 2. rewrite <- C10 at 2. rewrite <- C20 at 2. transitivity (D / D); [|field; exact ND]. unfold D at 4, det9. field. exact ND.
    + rewrite <- C01 at 2. rewrite <- C11 at 2. rewrite <- C21 at 2. transitivity (D / D); [|field; exact ND]. unfold D at 4, det9. field. exact ND.
    + rewrite <- C02 at 2. rewrite <- C12 at 2. rewrite <- C22 at 2. transitivity (D / D); [|field; exact ND]. unfold D at 4, det9. field. exact ND.
    + rewrite <- C01 at 1. rewrite <- C11 at 1. rewrite <- C21 at 1. field. exact ND.
    + rewrite <- C02 at 1. rewrite <- C12 at 1. rewrite <- C22 at 1. field. exact ND.
    + rewrite <- C02 at 1. rewrite <- C12 at 1. rewrite <- C22 at 1. field. exact ND.
Qed.
