(** Model of the geometry of the mesh tool EDGE-V: tools/edge_v/src/geom/{Line, Tria3, Quad4r, Hex8r, Tet4, Geom}.cpp and the functions of
    tools/edge_v/src/mesh/Mesh.cpp which apply it to the entities of a mesh.

    The scalar type and its operations are arbitrary. Vectors and matrices of the library Eigen are written out: the order of the operations
    within dot products and determinants is not modelled. Arrays of coordinates are lists of points. The loops over the entities of a mesh are
    parallel (OpenMP) in the code; every iteration writes its own entry. *)
From Coq Require Import List Arith Bool.
From Verif Require Import Util MeshConn.
Import ListNotations.
Open Scope nat_scope.

(** tools/edge_v/src/constants.h: t_entityType without points *)
Inductive enTy := eLine | eQuad | eTria | eHex | eTet.
Definition enOf (ty : elType) : enTy := match ty with QUAD4R => eQuad | TRIA3 => eTria | HEX8R => eHex | TET4 => eTet end.
(** tools/edge_v/src/constants.h: CE_T_FA *)
Definition faOf (ty : elType) : enTy := match ty with QUAD4R | TRIA3 => eLine | HEX8R => eQuad | TET4 => eTria end.

Section GeomV.
Context {T : Type}.
Variables (zero one : T) (add sub mul div : T -> T -> T) (opp sqrt : T -> T) (ltb eqb : T -> T -> bool).

Definition vec : Type := T * T * T.
Definition vX (v : vec) : T := fst (fst v).
Definition vY (v : vec) : T := snd (fst v).
Definition vZ (v : vec) : T := snd v.
Definition vzero : vec := (zero, zero, zero).

(** literals of the code *)
Definition two : T := add one one.
Definition four : T := add two two.
Definition six : T := add four two.
Definition twelve : T := add six six.

(** std::abs, std::max, std::min *)
Definition fabs (a : T) : T := if ltb a zero then opp a else a.
Definition fmx (a b : T) : T := if ltb a b then b else a.
Definition fmn (a b : T) : T := if ltb b a then b else a.

(** Eigen::Vector3d: operators -, +, scaling, dot, cross, norm, normalize (which leaves the zero vector unchanged) *)
Definition vsub (a b : vec) : vec := (sub (vX a) (vX b), sub (vY a) (vY b), sub (vZ a) (vZ b)).
Definition vadd (a b : vec) : vec := (add (vX a) (vX b), add (vY a) (vY b), add (vZ a) (vZ b)).
Definition vscale (s : T) (a : vec) : vec := (mul s (vX a), mul s (vY a), mul s (vZ a)).
Definition dot (a b : vec) : T := add (add (mul (vX a) (vX b)) (mul (vY a) (vY b))) (mul (vZ a) (vZ b)).
Definition cross (a b : vec) : vec :=
  (sub (mul (vY a) (vZ b)) (mul (vZ a) (vY b)), sub (mul (vZ a) (vX b)) (mul (vX a) (vZ b)), sub (mul (vX a) (vY b)) (mul (vY a) (vX b))).
Definition norm (a : vec) : T := sqrt (dot a a).
Definition normalize (a : vec) : vec :=
  if ltb zero (dot a a) then (div (vX a) (norm a), div (vY a) (norm a), div (vZ a) (norm a)) else a.

(** vertex of an entity; the buffers are initialized with zeros (Mesh.cpp:144, 721, 749, 778, 818) *)
Definition ve (ves : list vec) (i : nat) : vec := nth i ves vzero.

(** ** Lines *)

(** tools/edge_v/src/geom/Line.cpp 27-37 *)
Definition lineLength (ves : list vec) : T :=
  let d0 := sub (vX (ve ves 1)) (vX (ve ves 0)) in
  let d1 := sub (vY (ve ves 1)) (vY (ve ves 0)) in
  let d2 := sub (vZ (ve ves 1)) (vZ (ve ves 0)) in
  sqrt (add (add (add zero (mul d0 d0)) (mul d1 d1)) (mul d2 d2)).

(** tools/edge_v/src/geom/Line.cpp 39-90 *)
Definition lineNormal (ves : list vec) (np : vec) : vec :=
  let dx := sub (vX (ve ves 1)) (vX (ve ves 0)) in
  let dy := sub (vY (ve ves 1)) (vY (ve ves 0)) in
  let sq := add (mul dx dx) (mul dy dy) in
  let len := sqrt sq in
  let ux := if ltb zero sq then div dx len else dx in
  let uy := if ltb zero sq then div dy len else dy in
  let nx := opp uy in
  let ny := ux in
  let dp := add (mul nx (sub (vX np) (vX (ve ves 0)))) (mul ny (sub (vY np) (vY (ve ves 0)))) in
  if ltb zero dp then (mul nx (opp one), mul ny (opp one), zero) else (nx, ny, zero).

(** tools/edge_v/src/geom/Line.cpp 92-101 *)
Definition lineTangent (ves : list vec) (np : vec) : vec :=
  let n := lineNormal ves np in (opp (vY n), vX n, zero).

(** ** Triangles *)

(** tools/edge_v/src/geom/Tria3.cpp 28-46 *)
Definition triaArea (ves : list vec) : T :=
  div (norm (cross (vsub (ve ves 1) (ve ves 0)) (vsub (ve ves 2) (ve ves 0)))) two.

(** tools/edge_v/src/geom/Tria3.cpp 48-101 *)
Definition triaTangents (ves : list vec) (np : vec) : vec * vec :=
  let d0 := vsub (ve ves 1) (ve ves 0) in
  let d1 := vsub (ve ves 2) (ve ves 0) in
  let alpha := div (opp (dot d0 d1)) (dot d0 d0) in
  let n0 := normalize (vadd d1 (vscale alpha d0)) in
  let d0 := normalize d0 in
  let n1 := cross d0 n0 in
  let dp := dot n1 (vsub np (ve ves 0)) in
  if ltb zero dp then (n0, d0) else (d0, n0).

(** tools/edge_v/src/geom/Tria3.cpp 103-120 *)
Definition triaNormal (ves : list vec) (np : vec) : vec :=
  let ts := triaTangents ves np in cross (fst ts) (snd ts).

(** tools/edge_v/src/geom/Tria3.cpp 122-147 *)
Definition triaInDiameter (ves : list vec) : res T :=
  _ <- check (eqb (vZ (ve ves 0)) zero) ;; _ <- check (eqb (vZ (ve ves 1)) zero) ;; _ <- check (eqb (vZ (ve ves 2)) zero) ;;
  let l0 := norm (vsub (ve ves 0) (ve ves 1)) in
  let l1 := norm (vsub (ve ves 1) (ve ves 2)) in
  let l2 := norm (vsub (ve ves 2) (ve ves 0)) in
  Ok (div (mul four (triaArea ves)) (add (add l0 l1) l2)).

(** ** Rectangles and boxes *)

(** tools/edge_v/src/geom/Quad4r.cpp 32-39, Hex8r.cpp 32-39: largest distance of two of n vertices in the dimension selected by [c] *)
Definition distMax1 (n : nat) (c : vec -> T) (ves : list vec) : T :=
  fold_left (fun m p => fmx m (fabs (sub (c (ve ves (fst p))) (c (ve ves (snd p)))))) (list_prod (seq 0 n) (seq 0 n)) zero.

(** tools/edge_v/src/geom/Quad4r.cpp 28-42 *)
Definition quadDistMax (ves : list vec) : res (T * T) :=
  let x := distMax1 4 vX ves in let y := distMax1 4 vY ves in
  _ <- check (negb (eqb x zero)) ;; _ <- check (negb (eqb y zero)) ;; Ok (x, y).

(** tools/edge_v/src/geom/Quad4r.cpp 44-50 *)
Definition quadArea (ves : list vec) : T := mul (triaArea ves) two.

(** tools/edge_v/src/geom/Quad4r.cpp 70-77 *)
Definition quadInDiameter (ves : list vec) : res T :=
  d <- quadDistMax ves ;; Ok (fmn (fst d) (snd d)).

(** tools/edge_v/src/geom/Hex8r.cpp 28-43 *)
Definition hexDistMax (ves : list vec) : res (T * T * T) :=
  let x := distMax1 8 vX ves in let y := distMax1 8 vY ves in let z := distMax1 8 vZ ves in
  _ <- check (negb (eqb x zero)) ;; _ <- check (negb (eqb y zero)) ;; _ <- check (negb (eqb z zero)) ;; Ok (x, y, z).

(** tools/edge_v/src/geom/Hex8r.cpp 45-52 *)
Definition hexVolume (ves : list vec) : res T :=
  d <- hexDistMax ves ;; Ok (mul (mul (vX d) (vY d)) (vZ d)).

(** tools/edge_v/src/geom/Hex8r.cpp 54-62 *)
Definition hexInDiameter (ves : list vec) : res T :=
  d <- hexDistMax ves ;; Ok (fmn (fmn (vX d) (vY d)) (vZ d)).

(** ** Tetrahedra *)

(** determinant of the matrix with the rows (p, 1), tools/edge_v/src/geom/Tet4.cpp 33-44: expansion in the last column *)
Definition tetDet (a b c d : vec) : T :=
  let m (p q r : vec) := dot p (cross q r) in
  sub (add (sub (m a b c) (m a b d)) (m a c d)) (m b c d).

(** tools/edge_v/src/geom/Tet4.cpp 31-47 *)
Definition tetVolume (ves : list vec) : T := div (fabs (tetDet (ve ves 0) (ve ves 1) (ve ves 2) (ve ves 3))) six.

(** tools/edge_v/src/geom/Tet4.cpp 57-60 *)
Definition faNorm (a b c : vec) : T := norm (cross (vsub b a) (vsub c a)).

(** tools/edge_v/src/geom/Tet4.cpp 49-78 *)
Definition tetInDiameter (ves : list vec) : T :=
  let a := ve ves 0 in let b := ve ves 1 in let c := ve ves 2 in let d := ve ves 3 in
  div (mul twelve (tetVolume ves)) (add (add (add (faNorm a b c) (faNorm a b d)) (faNorm a c d)) (faNorm b c d)).

(** ** Selection of the entity type *)

(** tools/edge_v/src/geom/Geom.cpp 36-58 *)
Definition volume (t : enTy) (ves : list vec) : res T :=
  match t with
  | eLine => Ok (lineLength ves)
  | eQuad => Ok (quadArea ves)
  | eTria => Ok (triaArea ves)
  | eHex => hexVolume ves
  | eTet => Ok (tetVolume ves)
  end.

(** tools/edge_v/src/geom/Geom.cpp 75-95; Quad4r.cpp 61-68 *)
Definition normal (t : enTy) (ves : list vec) (np : vec) : res vec :=
  match t with
  | eLine => Ok (lineNormal ves np)
  | eTria | eQuad => Ok (triaNormal ves np)
  | _ => Er Echeck
  end.

(** tools/edge_v/src/geom/Geom.cpp 97-121; Quad4r.cpp 52-59 *)
Definition tangents (t : enTy) (ves : list vec) (np : vec) : res (vec * vec) :=
  match t with
  | eLine => Ok (lineTangent ves np, vzero)
  | eTria | eQuad => Ok (triaTangents ves np)
  | _ => Er Echeck
  end.

(** tools/edge_v/src/geom/Geom.cpp 123-141 *)
Definition inDiameter (t : enTy) (ves : list vec) : res T :=
  match t with
  | eQuad => quadInDiameter ves
  | eTria => triaInDiameter ves
  | eHex => hexInDiameter ves
  | eTet => Ok (tetInDiameter ves)
  | eLine => Er Echeck
  end.

(** ** Entities of a mesh *)

(** tools/edge_v/src/mesh/Mesh.cpp 55-73; None is the maximum of the index type *)
Definition getAddEntry (first second : list nat) : option nat :=
  find (fun s => negb (existsb (fun f => s =? f) first)) second.

(** tools/edge_v/src/mesh/Mesh.cpp 75-90 *)
Definition getEnVeCrds (enVe : list nat) (crds : list vec) : res (list vec) := mapM (rd crds) enVe.

(** tools/edge_v/src/mesh/Mesh.cpp 706-733 *)
Definition getAreasFa (ty : elType) (crds : list vec) (faVe : list (list nat)) : res (list T) :=
  mapM (fun k => v <- getEnVeCrds k crds ;; volume (faOf ty) v) faVe.

(** tools/edge_v/src/mesh/Mesh.cpp 735-760 *)
Definition getVolumesEl (ty : elType) (crds : list vec) (elVe : list (list nat)) : res (list T) :=
  mapM (fun e => v <- getEnVeCrds e crds ;; volume (enOf ty) v) elVe.

(** tools/edge_v/src/mesh/Mesh.cpp 129-155 *)
Definition setInDiameter (ty : elType) (crds : list vec) (elVe : list (list nat)) : res (list T) :=
  mapM (fun e => v <- getEnVeCrds e crds ;; inDiameter (enOf ty) v) elVe.

(** tools/edge_v/src/mesh/Mesh.cpp 776-796, 816-836: vertices of a face, and a vertex of its first element which is not a vertex of the face *)
Definition faceNp (crds : list vec) (faVe : list (list nat)) (faEl : list (nat * option nat)) (elVe : list (list nat)) (f : nat) : res (list vec * vec) :=
  k <- rd faVe f ;; v <- getEnVeCrds k crds ;; el <- rd faEl f ;; ev <- rd elVe (fst el) ;;
  match getAddEntry k ev with
  | None => Er Echeck
  | Some p => np <- rd crds p ;; Ok (v, np)
  end.

(** tools/edge_v/src/mesh/Mesh.cpp 762-801 *)
Definition getNormalsFa (ty : elType) (crds : list vec) (faVe : list (list nat)) (faEl : list (nat * option nat)) (elVe : list (list nat)) : res (list vec) :=
  mapM (fun f => x <- faceNp crds faVe faEl elVe f ;; normal (faOf ty) (fst x) (snd x)) (seq 0 (length faVe)).

(** tools/edge_v/src/mesh/Mesh.cpp 803-841 *)
Definition getTangentsFa (ty : elType) (crds : list vec) (faVe : list (list nat)) (faEl : list (nat * option nat)) (elVe : list (list nat)) : res (list (vec * vec)) :=
  mapM (fun f => x <- faceNp crds faVe faEl elVe f ;; tangents (faOf ty) (fst x) (snd x)) (seq 0 (length faVe)).
End GeomV.
