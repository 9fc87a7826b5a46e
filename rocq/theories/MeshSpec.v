(** Specification of meshes: reference elements and the position of an element's vertices. *)
From Coq Require Import QArith Qabs Sorting.Permutation Sorting.Sorted.
From Verif Require Import Util Partition MeshConn.
Open Scope nat_scope.

(** Faces of the reference elements, see the comments in tools/edge_v/src/geom/Tria3.cpp:153-156, Tet4.cpp and Hex8r.cpp:96-123 and
    the documentation of EDGE: local face [i] has the listed local vertices. *)
Definition refFaces (ty : elType) : list (list nat) :=
  match ty with
  | TRIA3 => [[0; 1]; [1; 2]; [2; 0]]
  | QUAD4R => [[0; 1]; [1; 2]; [2; 3]; [3; 0]]
  | TET4 => [[0; 2; 1]; [0; 1; 3]; [0; 3; 2]; [1; 2; 3]]
  | HEX8R => [[0; 3; 2; 1]; [0; 1; 5; 4]; [1; 2; 6; 5]; [3; 7; 6; 2]; [0; 4; 7; 3]; [4; 5; 6; 7]]
  end.

(** Corner of the unit cube (x, y, z) of a vertex of the hexahedral reference element. *)
Definition corner (k : nat) : nat * nat * nat :=
  nth k [(0, 0, 0); (1, 0, 0); (1, 1, 0); (0, 1, 0); (0, 0, 1); (1, 0, 1); (1, 1, 1); (0, 1, 1)] (0, 0, 0).
Definition cornerX k := fst (fst (corner k)).
Definition cornerY k := snd (fst (corner k)).
Definition cornerZ k := snd (corner k).

Section Placed.
Variable tol : Q.
Variable crds : list pt.
Definition xyz (v : nat) : pt := nth v crds (0, 0, 0)%Q.
Definition X v := crd (xyz v) 0.
Definition Y v := crd (xyz v) 1.
Definition Z v := crd (xyz v) 2.

(** twice the signed area of a triangle *)
Definition area2 (a b c : nat) : Q := ((X b - X a) * (Y c - Y a) - (X c - X a) * (Y b - Y a))%Q.
(** six times the signed volume of a tetrahedron: (b - a) . ((c - a) x (d - a)) *)
Definition volume6 (a b c d : nat) : Q :=
  ((X b - X a) * ((Y c - Y a) * (Z d - Z a) - (Z c - Z a) * (Y d - Y a))
   + (Y b - Y a) * ((Z c - Z a) * (X d - X a) - (X c - X a) * (Z d - Z a))
   + (Z b - Z a) * ((X c - X a) * (Y d - Y a) - (Y c - Y a) * (X d - X a)))%Q.

Definition level (a b : Q) : Prop := (Qabs (b - a) < tol)%Q.
Definition below (a b : Q) : Prop := (tol < b - a)%Q.

(** The vertices are in the order of the reference element: triangles are counter-clockwise, tetrahedra positively oriented,
    rectangles and boxes begin at the lower left corner. *)
Definition placed (ty : elType) (ps : list nat) : Prop :=
  match ty with
  | TRIA3 => exists a b c, ps = [a; b; c] /\ (0 < area2 a b c)%Q
  | TET4 => exists a b c d, ps = [a; b; c; d] /\ (tol < volume6 a b c d)%Q
  | QUAD4R => exists a b c d, ps = [a; b; c; d] /\ (X a < X b)%Q /\ (X d < X c)%Q /\
                (Y a < Y c)%Q /\ (Y a < Y d)%Q /\ (Y b < Y c)%Q /\ (Y b < Y d)%Q
  | HEX8R => length ps = 8 /\ forall k l, k < 8 -> l < 8 ->
      let a := nth k ps 0 in let b := nth l ps 0 in
      (cornerZ k < cornerZ l -> below (Z a) (Z b)) /\
      (cornerZ k = cornerZ l -> level (Z a) (Z b)) /\
      (cornerZ k = cornerZ l -> cornerY k < cornerY l -> below (Y a) (Y b)) /\
      (cornerZ k = cornerZ l -> cornerY k = cornerY l -> level (Y a) (Y b)) /\
      (cornerZ k = cornerZ l -> cornerY k = cornerY l -> cornerX k < cornerX l -> below (X a) (X b))
  end.

(** The face with vertices [k] is orthogonal to axis [di], and not to a smaller one. *)
Definition plane (ty : elType) (k : list nat) (di : nat) : Prop :=
  let flat x := forall v w, In v k -> In w k -> level (crd (xyz v) x) (crd (xyz w) x) in
  di < nDis ty /\ flat di /\ forall x, x < di -> ~ flat x.

(** Two faces are opposite to each other: orthogonal to the same axis, and the number of pairs of vertices which agree in all other
    coordinates is the number of vertices of a face. *)
Definition opposite (ty : elType) (k g : list nat) : Prop :=
  k <> g /\ exists di, plane ty k di /\ plane ty g di /\
  exists prs : list (nat * nat), NoDup prs /\ length prs = nFaVes ty /\
    forall v w, In (v, w) prs <-> In v k /\ In w g /\ forall x, x < nDis ty -> x <> di -> level (crd (xyz v) x) (crd (xyz w) x).
End Placed.

(** Vertices (in ascending order) of the faces of an element with vertices [ps] in the order of the reference element. *)
Definition facesOf (ty : elType) (ps : list nat) : list (list nat) :=
  map (fun r => sortNat (map (fun i => nth i ps 0) r)) (refFaces ty).

(** Entry [j] of row [i]. *)
Definition get2 {A} (l : list (list A)) (i j : nat) : option A :=
  match nth_error l i with Some row => nth_error row j | None => None end.

(** Elements with the right number of faces and vertices per face. *)
Definition shaped (ty : elType) (E : list (list (list nat))) : Prop :=
  forall row, In row E -> length row = nElFas ty /\ forall ves, In ves row -> length ves = nFaVes ty.

(** Not more than two faces of elements have the same vertices. *)
Definition conforming (E : list (list (list nat))) : Prop :=
  forall e0 f0 v0 e1 f1 v1 e2 f2 v2,
    get2 E e0 f0 = Some v0 -> get2 E e1 f1 = Some v1 -> get2 E e2 f2 = Some v2 ->
    Permutation v0 v1 -> Permutation v1 v2 -> (e0, f0) = (e1, f1) \/ (e1, f1) = (e2, f2) \/ (e0, f0) = (e2, f2).

(** ** Well-formed input *)

(** The elements as given by Gmsh: vertices [elVe] and vertices of the faces [elFaVe].  Every element has a valid position of its
    vertices with respect to the reference element, and the corresponding faces (in arbitrary order). *)
Definition wfMesh (tol : Q) (ty : elType) (crds : list pt) (elVe : list (list nat)) (elFaVe : list (list (list nat))) : Prop :=
  0 < length elVe /\ length elFaVe = length elVe /\ shaped ty elFaVe /\ conforming elFaVe /\
  forall el ve row, nth_error elVe el = Some ve -> nth_error elFaVe el = Some row ->
    NoDup ve /\ (forall v, In v ve -> v < length crds) /\
    exists ps, Permutation ve ps /\ placed tol crds ty ps /\ Permutation (map sortNat row) (facesOf ty ps).

(** Every face of a physical group is a face of an element; no face occurs twice in a group. *)
Definition wfGroups (elFaVe : list (list (list nat))) (groups : list (N * list (list nat))) : Prop :=
  forall t fs, In (t, fs) groups ->
    NoDup (map sortNat fs) /\ forall f, In f fs -> exists el fa ves, get2 elFaVe el fa = Some ves /\ Permutation f ves.

Definition vesOf (e : elem) : list nat := fst (fst e).
Definition fasOf (e : elem) : list nat := snd (fst e).
Definition adsOf (e : elem) : list (option nat) := snd e.

(** Vertices of a face of the mesh, in ascending order. *)
Definition isFace (elFaVe : list (list (list nat))) (k : list nat) : Prop :=
  exists el fa ves, get2 elFaVe el fa = Some ves /\ k = sortNat ves.

(** Type of the face with vertices [k]: the disjunction of the types of all groups the face belongs to. *)
Definition typeBits (groups : list (N * list (list nat))) (k : list nat) (t : N) : Prop :=
  forall b, N.testbit t b = true <-> exists g fs f, In (g, fs) groups /\ In f fs /\ Permutation f k /\ N.testbit g b = true.

(** ** Queries *)

(** Face and adjacent element (if any) of local face [i] of element [el]. *)
Definition elFace (m : mesh) (el i : nat) : option nat := match nth_error (mEls m) el with Some e => nth_error (fasOf e) i | None => None end.
Definition elAdj (m : mesh) (el i : nat) : option (option nat) := match nth_error (mEls m) el with Some e => nth_error (adsOf e) i | None => None end.

(** ** Requirements *)

(** The faces are those of the elements, every face once, in lexicographical order. *)
Definition facesOk (elFaVe : list (list (list nat))) (m : mesh) : Prop :=
  StronglySorted (fun a b => lexLt a b = true) (mFaVe m) /\ (forall k, In k (mFaVe m) <-> isFace elFaVe k) /\
  length (mFaEl m) = length (mFaVe m) /\ length (mSpFa m) = length (mFaVe m).

(** Every element has its vertices in an order which fits the reference element, and its local faces are those of the reference element. *)
Definition elementsOk (tol : Q) (ty : elType) (crds : list pt) (elVe : list (list nat)) (m : mesh) : Prop :=
  length (mEls m) = length elVe /\
  forall el ve, nth_error elVe el = Some ve -> exists e, nth_error (mEls m) el = Some e /\
    Permutation ve (vesOf e) /\ placed tol crds ty (vesOf e) /\
    length (fasOf e) = nElFas ty /\ length (adsOf e) = nElFas ty /\
    map (fun f => nth_error (mFaVe m) f) (fasOf e) = map Some (facesOf ty (vesOf e)).

(** Types of the faces. *)
Definition typesOk (groups : list (N * list (list nat))) (m : mesh) : Prop :=
  forall f k t, nth_error (mFaVe m) f = Some k -> nth_error (mSpFa m) f = Some t -> typeBits groups k t.

(** Local face [i] of [el] is face [f] with adjacent element [o].  Without an adjacent element no other local face is [f]; otherwise
    [f] is exactly one local face of exactly one other element, which is the adjacent one, and whose adjacent element is [el]. *)
Definition adjOk (m : mesh) (el i f : nat) (o : option nat) : Prop :=
  match o with
  | None => nth_error (mFaEl m) f = Some (el, None) /\ forall el' i', elFace m el' i' = Some f -> (el', i') = (el, i)
  | Some el' => el' <> el /\ nth_error (mFaEl m) f = Some (Nat.min el el', Some (Nat.max el el')) /\
      exists i', elFace m el' i' = Some f /\ elAdj m el' i' = Some (Some el) /\
        forall el'' i'', elFace m el'' i'' = Some f -> (el'', i'') = (el, i) \/ (el'', i'') = (el', i')
  end.

(** Faces [f] and [g] are connected by the periodic boundary of type [t]. *)
Definition periodicPair (tol : Q) (ty : elType) (crds : list pt) (t : N) (m : mesh) (f g : nat) : Prop :=
  nth_error (mSpFa m) f = Some t /\ nth_error (mSpFa m) g = Some t /\
  exists k k', nth_error (mFaVe m) f = Some k /\ nth_error (mFaVe m) g = Some k' /\ opposite tol crds ty k k'.

(** Faces of type [t] belong to one element, are orthogonal to an axis, and have at most one opposite face. *)
Definition wfPeriodic (tol : Q) (ty : elType) (crds : list pt) (elFaVe : list (list (list nat))) (groups : list (N * list (list nat))) (t : N) : Prop :=
  let per k := isFace elFaVe k /\ typeBits groups k t in
  (forall k el fa ves el' fa' ves', per k -> get2 elFaVe el fa = Some ves -> get2 elFaVe el' fa' = Some ves' ->
     Permutation ves k -> Permutation ves' k -> (el, fa) = (el', fa')) /\
  (forall k, per k -> exists di, plane tol crds ty k di) /\
  (forall k g g', per k -> per g -> per g' -> opposite tol crds ty k g -> opposite tol crds ty k g' -> g = g').
