(** Model of the element mappings of the solver: src/linalg/Shape.hpp, src/linalg/Mappings.hpp, the reference elements of src/constants.hpp and the points of
    src/dg/QuadratureEval.hpp.

    The scalar type and its operations are arbitrary; floating point numbers and exact numbers are instances.
    Vertex coordinates are a list of dimensions, each with one entry per vertex ([*][]: dimension, [][*]: vertex, as in the code); points are lists of coordinates.
    All array sizes are compile time constants in the code, reads outside of the arrays are not modelled. *)
From Coq Require Import List Arith Bool.
From Verif Require Import Util.
From Verif Require Comm.
Import ListNotations.

(** src/constants.hpp 29-36 *)
Inductive ent := POINT | LINE | QUAD4R | TRIA3 | HEX8R | TET4.

(** src/constants.hpp 46-59 *)
Definition nDim (t : ent) : nat := match t with POINT => 0 | LINE => 1 | QUAD4R => 2 | TRIA3 => 2 | HEX8R => 3 | TET4 => 3 end.
Definition nVes (t : ent) : nat := match t with POINT => 1 | LINE => 2 | QUAD4R => 4 | TRIA3 => 3 | HEX8R => 8 | TET4 => 4 end.
Definition nFas (t : ent) : nat := match t with POINT => 1 | LINE => 2 | QUAD4R => 4 | TRIA3 => 3 | HEX8R => 6 | TET4 => 4 end.
(** src/constants.hpp 99-103 *)
Definition nVeOpts (t : ent) : nat := match t with TET4 => 3 | _ => 1 end.

(** src/constants.hpp 596-601: C_REF_ELEMENT.VE, the first nDim dimensions *)
Definition refVe (t : ent) : list (list nat) :=
  match t with
  | POINT => []
  | LINE => [[0; 1]]
  | QUAD4R => [[0; 1; 1; 0]; [0; 0; 1; 1]]
  | TRIA3 => [[0; 1; 0]; [0; 0; 1]]
  | HEX8R => [[0; 1; 1; 0; 0; 1; 1; 0]; [0; 0; 1; 1; 0; 0; 1; 1]; [0; 0; 0; 0; 1; 1; 1; 1]]
  | TET4 => [[0; 1; 0; 0]; [0; 0; 1; 0]; [0; 0; 0; 1]]
  end.

(** src/constants.hpp 609-635: C_REF_ELEMENT.FA, [dimension][face][vertex], the first nDim dimensions *)
Definition refFa (t : ent) : list (list (list nat)) :=
  match t with
  | POINT => []
  | LINE => [[[0]; [1]]]
  | QUAD4R => [[[0; 1]; [1; 1]; [1; 0]; [0; 0]]; [[0; 0]; [0; 1]; [1; 1]; [1; 0]]]
  | TRIA3 => [[[0; 1]; [1; 0]; [0; 0]]; [[0; 0]; [0; 1]; [1; 0]]]
  | HEX8R => [[[0; 0; 1; 1]; [0; 1; 1; 0]; [1; 1; 1; 1]; [0; 0; 1; 1]; [0; 0; 0; 0]; [0; 1; 1; 0]];
              [[0; 1; 1; 0]; [0; 0; 0; 0]; [0; 1; 1; 0]; [1; 1; 1; 1]; [0; 0; 1; 1]; [0; 0; 1; 1]];
              [[0; 0; 0; 0]; [0; 0; 1; 1]; [0; 0; 1; 1]; [0; 1; 1; 0]; [0; 1; 1; 0]; [1; 1; 1; 1]]]
  | TET4 => [[[0; 0; 1]; [0; 1; 0]; [0; 0; 0]; [1; 0; 0]];
             [[0; 1; 0]; [0; 0; 0]; [0; 0; 1]; [0; 1; 0]];
             [[0; 0; 0]; [0; 0; 1]; [0; 1; 0]; [0; 0; 1]]]
  end.

(** src/constants.hpp 645-649: C_REF_ELEMENT.FA_VE_CC, [face][vertex] (line: [0][*] are the two faces) *)
Definition faVeCc (t : ent) : list (list nat) :=
  match t with
  | POINT => []
  | LINE => [[0; 1]]
  | QUAD4R => [[0; 1]; [1; 2]; [2; 3]; [3; 0]]
  | TRIA3 => [[0; 1]; [1; 2]; [2; 0]]
  | HEX8R => [[0; 3; 2; 1]; [0; 1; 5; 4]; [1; 2; 6; 5]; [3; 7; 6; 2]; [0; 4; 7; 3]; [4; 5; 6; 7]]
  | TET4 => [[0; 2; 1]; [0; 1; 3]; [0; 3; 2]; [1; 2; 3]]
  end.

Notation mapM := Comm.mapM.

Section Mapping.
Context {T : Type}.
Variables (zero one : T) (add sub mul div : T -> T -> T) (opp : T -> T) (ltb : T -> T -> bool).
(** TOL.MESH *)
Variable tolM : T.

Definition at1 (p : list T) (i : nat) : T := nth i p zero.
Definition at2 (v : list (list T)) (d i : nat) : T := nth i (nth d v []) zero.

(** a literal 0 or 1 of the tables *)
Definition lit (n : nat) : T := if n =? 0 then zero else one.

(** o = 0; for k < n: o += f(k) *)
Definition fsum (n : nat) (f : nat -> T) : T := fold_left (fun a k => add a (f k)) (seq 0 n) zero.

(** ** Shape functions *)

(** src/linalg/Shape.hpp 102-109 *)
Definition quad4 (xi eta : T) : list T :=
  [mul (sub one xi) (sub one eta); mul xi (sub one eta); mul xi eta; mul (sub one xi) eta].
(** src/linalg/Shape.hpp 162-168 *)
Definition tria3 (xi eta : T) : list T := [sub (sub one xi) eta; xi; eta].
(** src/linalg/Shape.hpp 224-237 *)
Definition hex8Lin (xi eta zeta : T) : list T :=
  let m a b c := mul (mul a b) c in
  let nx := sub one xi in let ne := sub one eta in let nz := sub one zeta in
  [m nx ne nz; m xi ne nz; m xi eta nz; m nx eta nz; m nx ne zeta; m xi ne zeta; m xi eta zeta; m nx eta zeta].
(** src/linalg/Shape.hpp 328-336 *)
Definition tet4 (xi eta zeta : T) : list T := [sub (sub (sub one xi) eta) zeta; xi; eta; zeta].

(** ** Derivatives of the shape functions: [d / dxi; d / deta; d / dzeta] *)

(** src/linalg/Shape.hpp 72-75 *)
Definition derLine : list (list T) := [[opp one; one]].
(** src/linalg/Shape.hpp 123-135 *)
Definition derQuad4 (xi eta : T) : list (list T) :=
  [[opp (sub one eta); sub one eta; eta; opp eta]; [opp (sub one xi); opp xi; xi; sub one xi]].
(** src/linalg/Shape.hpp 180-188 *)
Definition derTria3 : list (list T) := [[opp one; one; zero]; [opp one; zero; one]].
(** src/linalg/Shape.hpp 253-286 *)
Definition derHex8Lin (xi eta zeta : T) : list (list T) :=
  let m a b c := mul (mul a b) c in
  let nx := sub one xi in let ne := sub one eta in let nz := sub one zeta in let n := opp one in
  [[m n ne nz; m one ne nz; m one eta nz; m n eta nz; m n ne zeta; m one ne zeta; m one eta zeta; m n eta zeta];
   [m nx n nz; m xi n nz; m xi one nz; m nx one nz; m nx n zeta; m xi n zeta; m xi one zeta; m nx one zeta];
   [m nx ne n; m xi ne n; m xi eta n; m nx eta n; m nx ne one; m xi ne one; m xi eta one; m nx eta one]].
(** src/linalg/Shape.hpp 348-363 *)
Definition derTet4 : list (list T) := [[opp one; one; zero; zero]; [opp one; zero; one; zero]; [opp one; zero; zero; one]].

(** src/linalg/Mappings.hpp 189-230: the Jacobian, [derivative by reference dimension][physical dimension]; the arguments xi, eta, zeta of the code are not used *)
Definition evalJac (t : ent) (ves : list (list T)) : res (list (list T)) :=
  der <- match t with
         | LINE => Ok derLine
         | QUAD4R => Ok (derQuad4 zero zero)
         | TRIA3 => Ok derTria3
         | HEX8R => Ok (derHex8Lin zero zero zero)
         | TET4 => Ok derTet4
         | POINT => Er Echeck
         end;;
  Ok (map (fun d1 => map (fun d2 => fsum (nVes t) (fun pt => mul (at2 ves d2 pt) (at2 der d1 pt))) (seq 0 (nDim t))) (seq 0 (nDim t))).

(** ** From reference to physical coordinates *)

(** src/linalg/Mappings.hpp 272-277, 301-306, 332-337, 363-368 *)
Definition evalMap (nd nv : nat) (ves : list (list T)) (sf : list T) : list T :=
  map (fun d => fsum nv (fun pt => mul (at2 ves d pt) (at1 sf pt))) (seq 0 nd).

(** src/linalg/Mappings.hpp 382-402, with mapRefToPhyLine (243-249) *)
Definition refToPhy (t : ent) (ves : list (list T)) (xi : list T) : res (list T) :=
  match t with
  | LINE => Ok [add (mul (sub (at2 ves 0 1) (at2 ves 0 0)) (at1 xi 0)) (at2 ves 0 0)]
  | QUAD4R => Ok (evalMap 2 4 ves (quad4 (at1 xi 0) (at1 xi 1)))
  | TRIA3 => Ok (evalMap 2 3 ves (tria3 (at1 xi 0) (at1 xi 1)))
  | HEX8R => Ok (evalMap 3 8 ves (hex8Lin (at1 xi 0) (at1 xi 1) (at1 xi 2)))
  | TET4 => Ok (evalMap 3 4 ves (tet4 (at1 xi 0) (at1 xi 1) (at1 xi 2)))
  | POINT => Er Echeck
  end.

(** ** From physical to reference coordinates *)

(** src/linalg/Mappings.hpp 428-503: the matrix l_m before the division *)
Definition tetMat (v : list (list T)) : list (list T) :=
  let x i := at2 v 0 i in let y i := at2 v 1 i in let z i := at2 v 2 i in
  let t3 a0 a1 a2 a3 a4 a5 a6 a7 a8 a9 a10 a11 a12 a13 a14 :=
    add (add (mul a0 (sub (mul a1 a2) (mul a3 a4))) (mul a5 (sub (mul a6 a7) (mul a8 a9)))) (mul a10 (sub (mul a11 a12) (mul a13 a14))) in
  let t2 a0 a1 b0 b1 c0 c1 d0 d1 := sub (mul (sub a0 a1) (sub b0 b1)) (mul (sub c0 c1) (sub d0 d1)) in
  [[t3 (x 1) (y 2) (z 3) (y 3) (z 2) (x 2) (y 3) (z 1) (y 1) (z 3) (x 3) (y 1) (z 2) (y 2) (z 1);
    t2 (y 3) (y 1) (z 2) (z 1) (y 2) (y 1) (z 3) (z 1);
    t2 (x 2) (x 1) (z 3) (z 1) (x 3) (x 1) (z 2) (z 1);
    t2 (x 3) (x 1) (y 2) (y 1) (x 2) (x 1) (y 3) (y 1)];
   [t3 (x 0) (y 3) (z 2) (y 2) (z 3) (x 2) (y 0) (z 3) (y 3) (z 0) (x 3) (y 2) (z 0) (y 0) (z 2);
    t2 (y 2) (y 0) (z 3) (z 2) (y 2) (y 3) (z 0) (z 2);
    t2 (x 3) (x 2) (z 2) (z 0) (x 0) (x 2) (z 2) (z 3);
    t2 (x 2) (x 0) (y 3) (y 2) (x 2) (x 3) (y 0) (y 2)];
   [t3 (x 0) (y 1) (z 3) (y 3) (z 1) (x 1) (y 3) (z 0) (y 0) (z 3) (x 3) (y 0) (z 1) (y 1) (z 0);
    t2 (y 1) (y 3) (z 0) (z 3) (y 0) (y 3) (z 1) (z 3);
    t2 (x 0) (x 3) (z 1) (z 3) (x 1) (x 3) (z 0) (z 3);
    t2 (x 1) (x 3) (y 0) (y 3) (x 0) (x 3) (y 1) (y 3)];
   [t3 (x 0) (y 2) (z 1) (y 1) (z 2) (x 1) (y 0) (z 2) (y 2) (z 0) (x 2) (y 1) (z 0) (y 0) (z 1);
    t2 (y 0) (y 2) (z 1) (z 0) (y 0) (y 1) (z 2) (z 0);
    t2 (x 1) (x 0) (z 0) (z 2) (x 2) (x 0) (z 0) (z 1);
    t2 (x 0) (x 2) (y 1) (y 0) (x 0) (x 1) (y 2) (y 0)]].

(** src/linalg/Mappings.hpp 416-521 *)
Definition phyToRefTet4 (v : list (list T)) (x : list T) : res (list T) :=
  let m := tetMat v in
  let dv := div one (add (add (add (at2 m 0 0) (at2 m 1 0)) (at2 m 2 0)) (at2 m 3 0)) in
  let inv ro co := mul (at2 m ro co) dv in
  Ok (map (fun ro => fold_left (fun a ve => add a (mul (inv ro ve) (at1 x (ve - 1)))) [1; 2; 3] (inv ro 0)) [1; 2; 3]).

(** src/linalg/Mappings.hpp 536-563 *)
Definition phyToRefTria3 (v : list (list T)) (x : list T) : res (list T) :=
  let a := at2 v in
  let xi0 := add (sub (mul (a 0 2) (a 1 0)) (mul (a 0 0) (a 1 2)))
                 (add (mul (at1 x 0) (sub (a 1 2) (a 1 0))) (mul (at1 x 1) (sub (a 0 0) (a 0 2)))) in
  let xi1 := add (sub (mul (a 0 0) (a 1 1)) (mul (a 0 1) (a 1 0)))
                 (add (mul (at1 x 0) (sub (a 1 0) (a 1 1))) (mul (at1 x 1) (sub (a 0 1) (a 0 0)))) in
  let det := sub (mul (sub (a 0 1) (a 0 0)) (sub (a 1 2) (a 1 0))) (mul (sub (a 0 2) (a 0 0)) (sub (a 1 1) (a 1 0))) in
  _ <- check (ltb tolM det);;
  Ok [div xi0 det; div xi1 det].

(** src/linalg/Mappings.hpp 573-587 *)
Definition phyToRefQuad4r (v : list (list T)) (x : list T) : res (list T) :=
  let dx := sub (at2 v 0 1) (at2 v 0 0) in _ <- check (ltb tolM dx);;
  let dy := sub (at2 v 1 3) (at2 v 1 0) in _ <- check (ltb tolM dy);;
  Ok [div (sub (at1 x 0) (at2 v 0 0)) dx; div (sub (at1 x 1) (at2 v 1 0)) dy].

(** src/linalg/Mappings.hpp 599-617 *)
Definition phyToRefHex8r (v : list (list T)) (x : list T) : res (list T) :=
  let dx := sub (at2 v 0 1) (at2 v 0 0) in _ <- check (ltb tolM dx);;
  let dy := sub (at2 v 1 3) (at2 v 1 0) in _ <- check (ltb tolM dy);;
  let dz := sub (at2 v 2 4) (at2 v 2 0) in _ <- check (ltb tolM dz);;
  Ok [div (sub (at1 x 0) (at2 v 0 0)) dx; div (sub (at1 x 1) (at2 v 1 0)) dy; div (sub (at1 x 2) (at2 v 2 0)) dz].

(** src/linalg/Mappings.hpp 628-637 *)
Definition phyToRef (t : ent) (v : list (list T)) (x : list T) : res (list T) :=
  match t with
  | QUAD4R => phyToRefQuad4r v x
  | TRIA3 => phyToRefTria3 v x
  | HEX8R => phyToRefHex8r v x
  | TET4 => phyToRefTet4 v x
  | _ => Er Echeck
  end.

(** ** Points of faces *)

(** C_REF_ELEMENT.FA.*[d][fa][ve] *)
Definition fav (t : ent) (d fa ve : nat) : T := lit (nth ve (nth fa (nth d (refFa t) []) []) 0).

(** src/linalg/Mappings.hpp 775-789, 799-813: edge of a quad or triangle *)
Definition faToVol2 (t : ent) (fa : nat) (pt : list T) : list T :=
  map (fun d => add (mul (sub (fav t d fa 1) (fav t d fa 0)) (at1 pt 0)) (fav t d fa 0)) [0; 1].
(** src/linalg/Mappings.hpp 823-844, 854-875: face of a hex ([ve2] is 3) or tet ([ve2] is 2) *)
Definition faToVol3 (t : ent) (ve2 fa : nat) (pt : list T) : list T :=
  map (fun d => add (add (mul (sub (fav t d fa 1) (fav t d fa 0)) (at1 pt 0)) (mul (sub (fav t d fa ve2) (fav t d fa 0)) (at1 pt 1))) (fav t d fa 0)) [0; 1; 2].
(** src/linalg/Mappings.hpp 887-908: from the coordinates of a point in the face to the coordinates in the reference element *)
Definition faToVolRef (fa : nat) (t : ent) (pt : list T) : res (list T) :=
  match t with
  | LINE => _ <- check (fa <? 2);; Ok [fav LINE 0 fa 0]
  | QUAD4R => _ <- check (fa <? 4);; Ok (faToVol2 QUAD4R fa pt)
  | TRIA3 => _ <- check (fa <? 3);; Ok (faToVol2 TRIA3 fa pt)
  | HEX8R => _ <- check (fa <? 6);; Ok (faToVol3 HEX8R 3 fa pt)
  | TET4 => _ <- check (fa <? 4);; Ok (faToVol3 TET4 2 fa pt)
  | POINT => Er Echeck
  end.

(** src/linalg/Mappings.hpp 943-985: from the coordinates of a point in the face of the element to those in the adjacent element's face.
    [ve]: position, in the adjacent element's face, of the element's first face vertex. *)
Definition faLocToFaNei (t : ent) (pt : list T) (ve : nat) : res (list T) :=
  match t with
  | POINT => Er Echeck
  | HEX8R => Ok [at1 pt 1; at1 pt 0]
  | TET4 => match ve with
            | 0 => Ok [at1 pt 1; at1 pt 0]
            | 1 => Ok [sub (sub one (at1 pt 0)) (at1 pt 1); at1 pt 1]
            | 2 => Ok [at1 pt 0; sub (sub one (at1 pt 0)) (at1 pt 1)]
            | _ => Er Echeck
            end
  | _ => Ok [sub one (at1 pt 0)]
  end.

(** src/dg/QuadratureEval.hpp 152-183: positions of the quadrature points of faces in reference coordinates; [pts] are the points of the face's rule.
    Not for lines, which have an own version (301-304). First the local points of the faces, then those of all combinations of face and orientation
    as seen from the adjacent element. *)
Definition facePts (t : ent) (pts : list (list T)) : res (list (list (list T))) :=
  loc <- mapM (fun fa => mapM (faToVolRef fa t) pts) (seq 0 (nFas t));;
  nei <- mapM (fun fv => mapM (fun pt => q <- faLocToFaNei t pt (snd fv);; faToVolRef (fst fv) t q) pts)
              (list_prod (seq 0 (nFas t)) (seq 0 (nVeOpts t)));;
  Ok (loc ++ nei).

(** src/dg/QuadratureEval.hpp 301-304: the points of lines; the entries of adjacent elements are those of the local face *)
Definition facePtsLine : list (list (list T)) := [[[lit 0]]; [[lit 1]]; [[lit 1]]; [[lit 0]]].

End Mapping.
