(** Output of internal boundaries: the notions the theorems are stated with. *)
From Coq Require Import List Arith Bool ZArith.
From Verif Require Import Util SubGrid SubGridSpec IbWriter.
Import ListNotations.
Open Scope nat_scope.

Section Spec.
  Variable (T : Type) (zero : T) (phy : list (list T) -> list T -> res (list T)).
  Notation conn := (conn T).
  (** [el] is the left element of boundary face [bf], which is its face [fa] *)
  Definition leftOf (I : conn) (bf el fa : nat) : Prop :=
    exists bes be fas, nth_error (bfBe T I) bf = Some bes /\ nth_error bes 0 = Some be /\ nth_error (beEl T I) be = Some el /\ nth_error (fIds T I) bf = Some fas /\ nth_error fas 0 = Some fa.
  (** [ves] are the coordinates of the vertices of [el]: by dimension, then by vertex *)
  Definition shapeOf (nDis : nat) (I : conn) (el : nat) (ves : list (list T)) : Prop :=
    exists ids, nth_error (elVe T I) el = Some ids /\ length ves = nDis /\ forall di, di < nDis -> exists row, nth_error ves di = Some row /\ length row = length ids /\
    forall i v, nth_error ids i = Some v -> exists crd x, nth_error (crdVe T I) v = Some crd /\ nth_error crd di = Some x /\ nth_error row i = Some x.
  (** [p] is the position of sub-vertex [v] in the left element of boundary face [bf], with zeros for the missing dimensions *)
  Definition position (nDis : nat) (I : conn) (bf : nat) (v : Z) (p : list T) : Prop :=
    exists el fa ves xi x, leftOf I bf el fa /\ shapeOf nDis I el ves /\ (0 <= v)%Z /\ nth_error (crdSv T I) (Z.to_nat v) = Some xi /\ phy ves xi = Ok x /\ p = firstn 3 (x ++ [zero; zero; zero]).
  (** everything [init] reads exists: boundary face [bf] has a left element with vertices, and all sub-vertices of its face have positions *)
  Definition ready (nDis nFas nSfs nFaVes nScs : nat) (scSv : list (list Z)) (I : conn) (bf : nat) : Prop :=
    exists el fa ids, leftOf I bf el fa /\ fa < nFas /\ nth_error (elVe T I) el = Some ids /\ (forall v, In v ids -> exists crd, nth_error (crdVe T I) v = Some crd /\ nDis <= length crd) /\
    forall ves v, shapeOf nDis I el ves -> In v (faceIds nSfs nFaVes nScs scSv fa) -> (0 <= v)%Z /\ exists xi x, nth_error (crdSv T I) (Z.to_nat v) = Some xi /\ phy ves xi = Ok x.
End Spec.
(** the buffers for the sub-grids of the faces have their sizes, every face has [nSfs] ghost sub-cells and exactly [nFaSvs] sub-vertices, none of them invalid *)
Definition tables (hex : bool) (nFas nSfs nFaVes nFaSvs nScs : nat) (scSv : list (list Z)) (o_l : list (list (list nat))) (o_r : list (list Z)) : Prop :=
  (hex = true -> 2 <= nFaVes) /\ length o_l = nFas /\ length o_r = nFas /\ (forall rows, In rows o_l -> length rows = nSfs /\ forall row, In row rows -> length row = nFaVes) /\
  (forall fa sf, fa < nFas -> sf < nSfs -> exists row, nth_error scSv (nScs + fa * nSfs + sf) = Some row /\ nFaVes <= length row) /\
  forall fa, fa < nFas -> ~ In inv (faceIds nSfs nFaVes nScs scSv fa) /\ length (firsts (faceIds nSfs nFaVes nScs scSv fa)) = nFaSvs.
(** a file of boundary faces [first], ..., [first+size-1] with all its points, cells and values; the ids of the points are by [shift] too high *)
Definition fileOk (T : Type) (zero : T) (phy : list (list T) -> list T -> res (list T)) (hex : bool) (nDis nSfs nFaVes nFaSvs nScs first size nQts stride : nat) (scSv : list (list Z)) (I : conn T) (data : list T) (shift : nat) (f : file T) : Prop :=
  length (pts T f) = size * nFaSvs /\ length (cells T f) = size * nSfs /\ length (vals T f) = nQts /\ forall i sf, i < size -> sf < nSfs ->
  (exists el fa row, leftOf T I (first + i) el fa /\ nth_error (cells T f) (i * nSfs + sf) = Some row /\ length row = nFaVes /\ forall ve, ve < nFaVes -> exists k x, nth_error row ve = Some (shift + k) /\ nth_error (pts T f) k = Some x /\
    position T zero phy nDis I (first + i) (at2 scSv (nScs + fa * nSfs + sf) (exch hex ve)) x) /\
  forall qt, qt < nQts -> exists v, nth_error (vals T f) qt = Some v /\ length v = size * nSfs /\ nth_error v (i * nSfs + sf) = nth_error data (((first + i) * nSfs + sf) * stride + qt).
