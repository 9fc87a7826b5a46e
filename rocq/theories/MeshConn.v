(** Connectivity of the preprocessor's meshes: model of edge_v::mesh::Mesh (constructor and the functions it calls),
    edge_v::geom::{Generic,Tria3,Quad4r,Tet4,Hex8r} (normVesFas, sortLex, getFaIdsAd, getVeIdsAd) and of the mesh related parts of
    edge_v::io::Gmsh (getId, reading of vertices, reorder).

    Simplifications:
    - integers are [nat]; std::numeric_limits< T >::max() as id is [None];
    - arrays with a constant number of entries per entity are lists of rows instead of flat arrays;
    - coordinates and products of them are exact rationals instead of double precision numbers; the tolerance 1E-6 is the
      parameter [tol];
    - std::sort is an arbitrary function [srt]: the theorems hold for every function which returns a sorted permutation
      whenever the comparison is a strict weak order (std::sort is not stable, the order of equal entries is arbitrary);
      for numbers, where equal entries are indistinguishable, it is [sortNat] of Partition.v. *)
From Coq Require Import QArith Qabs.
From Verif Require Import Util Partition.
Open Scope nat_scope.

Definition pt : Type := Q * Q * Q.
Definition crd (p : pt) (di : nat) : Q := match di with 0 => fst (fst p) | 1 => snd (fst p) | _ => snd p end.
Definition Qltb (a b : Q) : bool := negb (Qle_bool b a).

(** Models tools/edge_v/src/constants.h:36-44 (t_entityType), the types of elements. *)
Inductive elType := QUAD4R | TRIA3 | HEX8R | TET4.
(** Models tools/edge_v/src/constants.h:52-105 (CE_N_DIS, CE_N_VES, CE_N_FAS, CE_T_FA and CE_N_VES of it). *)
Definition nDis ty := match ty with QUAD4R | TRIA3 => 2 | HEX8R | TET4 => 3 end.
Definition nElVes ty := match ty with QUAD4R => 4 | TRIA3 => 3 | HEX8R => 8 | TET4 => 4 end.
Definition nElFas ty := match ty with QUAD4R => 4 | TRIA3 => 3 | HEX8R => 6 | TET4 => 4 end.
Definition nFaVes ty := match ty with QUAD4R | TRIA3 => 2 | HEX8R => 4 | TET4 => 3 end.

(** Entry [j] of row [i]. *)
Definition rd2 {A} (l : list (list A)) (i j : nat) : res A := row <- rd l i ;; rd row j.
Definition wr2 {A} (l : list (list A)) (i j : nat) (v : A) : res (list (list A)) :=
  row <- rd l i ;; row <- wr row j v ;; wr l i row.
(** Exchanges two entries. *)
Definition swap {A} (i j : nat) (l : list A) : res (list A) :=
  a <- rd l i ;; b <- rd l j ;; l <- wr l i b ;; wr l j a.

Fixpoint mapM {A B} (f : A -> res B) (l : list A) : res (list B) :=
  match l with
  | [] => Ok []
  | a :: l => b <- f a ;; r <- mapM f l ;; Ok (b :: r)
  end.
Fixpoint mapi {A B} (f : nat -> A -> B) (i : nat) (l : list A) : list B :=
  match l with [] => [] | a :: l => f i a :: mapi f (S i) l end.

(** Lexicographic comparison.  Models tools/edge_v/src/mesh/Mesh.cpp:427-431 (std::tie) for faces with the same number of
    vertices and tools/edge_v/src/geom/Generic.cpp:60-71 (l_entryLess). *)
Fixpoint lexLt (a b : list nat) : bool :=
  match a, b with
  | x :: a, y :: b => if x <? y then true else if y <? x then false else lexLt a b
  | _, _ => false
  end.

Section Sort.
(** std::sort *)
Variable srt : forall A : Type, (A -> A -> bool) -> list A -> list A.
Variable tol : Q.

(** Sorted rows and their previous positions.  Models tools/edge_v/src/geom/Generic.cpp:43-90 (sortLex). *)
Definition sortLex (rows : list (list nat)) : res (list (list nat) * list nat) :=
  let sorted := srt nat (fun a b => lexLt (nth a rows []) (nth b rows [])) (seq 0 (length rows)) in
  rows <- mapM (fun i => rd rows i) sorted ;; Ok (rows, sorted).

(** ** Normalization of the local order *)

(** Vertices, faces and adjacent elements of an element. *)
Definition elem : Type := list nat * list nat * list (option nat).

(** Models tools/edge_v/src/geom/Tria3.cpp:149-202 (normVesFas). *)
Definition normTria3 (c : list pt) (e : elem) : res elem :=
  let '(ve, fa, ad) := e in
  fa <- swap 1 2 fa ;; ad <- swap 1 2 ad ;;
  c0 <- rd c 0 ;; c1 <- rd c 1 ;; c2 <- rd c 2 ;;
  let det := ((crd c1 0 - crd c0 0) * (crd c2 1 - crd c0 1) - (crd c2 0 - crd c0 0) * (crd c1 1 - crd c0 1))%Q in
  if Qltb det 0 then ve <- swap 1 2 ve ;; fa <- swap 0 2 fa ;; ad <- swap 0 2 ad ;; Ok (ve, fa, ad)
  else Ok (ve, fa, ad).

(** Determinant of the vectors from [c0] to [c1], [c2], [c3] (Eigen's determinant of a 3x3 matrix). *)
Definition det3 (c0 c1 c2 c3 : pt) : Q :=
  let m i j := (crd (nth j [c1; c2; c3] c0) i - crd c0 i)%Q in
  let a := m 0 0 in let b := m 0 1 in let c := m 0 2 in
  let d := m 1 0 in let e := m 1 1 in let f := m 1 2 in
  let g := m 2 0 in let h := m 2 1 in let i := m 2 2 in
  (a * (e * i - f * h) - b * (d * i - f * g) + c * (d * h - e * g))%Q.

(** Models tools/edge_v/src/geom/Tet4.cpp:80-112 (normVesFas). *)
Definition normTet4 (c : list pt) (e : elem) : res elem :=
  let '(ve, fa, ad) := e in
  c0 <- rd c 0 ;; c1 <- rd c 1 ;; c2 <- rd c 2 ;; c3 <- rd c 3 ;;
  let det := det3 c0 c1 c2 c3 in
  _ <- check (Qltb tol (Qabs det)) ;;
  if Qltb det 0 then ve <- swap 2 3 ve ;; fa <- swap 0 1 fa ;; ad <- swap 0 1 ad ;; Ok (ve, fa, ad)
  else Ok (ve, fa, ad).

(** Sorts vertices by y and the lower and upper pair by x; state: coordinates, local vertices.
    Models tools/edge_v/src/geom/Quad4r.cpp:83-120. *)
Definition quadOrder (c : list pt) : res (list nat) :=
  '(c, ve) <- for_ 0 4 (fun v0 s => for_ v0 4 (fun v1 s =>
     let '(c, ve) := s in
     a <- rd c v0 ;; b <- rd c v1 ;;
     if Qltb (crd b 1) (crd a 1) then ve <- swap v1 v0 ve ;; c <- swap v1 v0 c ;; Ok (c, ve) else Ok (c, ve)) s) (c, [0; 1; 2; 3]) ;;
  c0 <- rd c 0 ;; c1 <- rd c 1 ;; c2 <- rd c 2 ;; c3 <- rd c 3 ;;
  ve <- (if Qltb (crd c1 0) (crd c0 0) then swap 0 1 ve else Ok ve) ;;
  if Qltb (crd c2 0) (crd c3 0) then swap 3 2 ve else Ok ve.

(** Position of the last entry equal to [x].  Models tools/edge_v/src/geom/Quad4r.cpp:126-129. *)
Definition lastPos (x : nat) (l : list nat) : res (option nat) :=
  for_ 0 4 (fun i p => v <- rd l i ;; Ok (if v =? x then Some i else p)) None.

(** Positions of the faces in lexicographic order.  Models tools/edge_v/src/geom/Quad4r.cpp:122-147. *)
Definition quadFaces (ve : list nat) : res (list nat) :=
  let fo := [3; 3; 3; 3] in
  o0 <- lastPos 0 ve ;; o1 <- lastPos 1 ve ;;
  match o0, o1 with
  | Some p0, Some p1 =>
      a <- rd ve ((p0 + 3) mod 4) ;; b <- rd ve ((p0 + 1) mod 4) ;;
      fo <- (if b <? a then fo <- wr fo p0 0 ;; wr fo ((p0 + 3) mod 4) 1
             else fo <- wr fo p0 1 ;; wr fo ((p0 + 3) mod 4) 0) ;;
      a <- rd ve ((p1 + 3) mod 4) ;; b <- rd ve ((p1 + 1) mod 4) ;;
      f1 <- rd fo p1 ;; f3 <- rd fo ((p1 + 3) mod 4) ;;
      if ((b <? a) && (f1 =? 3)) || negb (f3 =? 3) then wr fo p1 2 else wr fo ((p1 + 3) mod 4) 2
  | _, _ => Er Eub
  end.

(** Models tools/edge_v/src/geom/Quad4r.cpp:79-163 (normVesFas). *)
Definition normQuad4r (c : list pt) (e : elem) : res elem :=
  let '(ve, fa, ad) := e in
  lv <- quadOrder c ;; lf <- quadFaces lv ;;
  ve <- mapM (fun i => rd ve i) lv ;; fa <- mapM (fun i => rd fa i) lf ;; ad <- mapM (fun i => rd ad i) lf ;;
  Ok (ve, fa, ad).

(** Models tools/edge_v/src/geom/Hex8r.cpp:68-84 (l_veLess). *)
Definition veLess (c : list pt) (a b : nat) : bool :=
  let d i := (crd (nth b c (0, 0, 0)%Q) i - crd (nth a c (0, 0, 0)%Q) i)%Q in
  if Qltb tol (d 2) then true
  else if Qltb (Qabs (d 2)) tol && Qltb tol (d 1) then true
  else Qltb (Qabs (d 2)) tol && Qltb (Qabs (d 1)) tol && Qltb tol (d 0).

(** Models tools/edge_v/src/geom/Hex8r.cpp:143-149, the faces of the reference element. *)
Definition hexFaces : list (list nat) :=
  [[0; 3; 2; 1]; [0; 1; 5; 4]; [1; 2; 6; 5]; [3; 7; 6; 2]; [0; 4; 7; 3]; [4; 5; 6; 7]].

(** Models tools/edge_v/src/geom/Hex8r.cpp:64-176 (normVesFas). *)
Definition normHex8r (c : list pt) (e : elem) : res elem :=
  let '(ve, fa, ad) := e in
  sorted <- swap 2 3 (srt nat (veLess c) (seq 0 8)) ;;
  sorted <- swap 6 7 sorted ;;
  ve <- mapM (fun i => rd ve i) sorted ;;
  faVe <- mapM (fun f => l <- mapM (fun i => rd ve i) f ;; Ok (sortNat l)) hexFaces ;;
  '(_, mapping) <- sortLex faVe ;;
  '(faN, adN) <- for_ 0 6 (fun i s =>
     let '(faN, adN) := s in
     id <- rd mapping i ;; f <- rd fa i ;; a <- rd ad i ;;
     faN <- wr faN id f ;; adN <- wr adN id a ;; Ok (faN, adN)) (fa, ad) ;;
  Ok (ve, faN, adN).

(** Models tools/edge_v/src/geom/Geom.cpp:144-173 (normVesFas). *)
Definition normVesFas (ty : elType) : list pt -> elem -> res elem :=
  match ty with QUAD4R => normQuad4r | TRIA3 => normTria3 | HEX8R => normHex8r | TET4 => normTet4 end.

(** ** Order of vertices and faces *)

(** Comparison of two faces; equality is fatal.  Models tools/edge_v/src/mesh/Mesh.cpp:316-335 (l_faLess). *)
Fixpoint lexLess (a b : list nat) : res bool :=
  match a, b with
  | x :: a, y :: b => if x <? y then Ok true else if y <? x then Ok false else lexLess a b
  | _, _ => Er Echeck
  end.

(** One comparison of the sorting of an element's faces.  Models tools/edge_v/src/mesh/Mesh.cpp:339-356. *)
Definition sortStep (faVe : list (list nat)) (f0 f1 : nat) (s : list nat * list (option nat)) : res (list nat * list (option nat)) :=
  let '(fa, ad) := s in
  id0 <- rd fa f0 ;; id1 <- rd fa f1 ;;
  v1 <- rd faVe id1 ;; v0 <- rd faVe id0 ;;
  less <- lexLess v1 v0 ;;
  if (less : bool) then fa <- swap f0 f1 fa ;; ad <- swap f0 f1 ad ;; Ok (fa, ad) else Ok (fa, ad).

(** Models tools/edge_v/src/mesh/Mesh.cpp:336-358. *)
Definition sortFaces (n : nat) (faVe : list (list nat)) (s : list nat * list (option nat)) : res (list nat * list (option nat)) :=
  for_ 0 n (fun f0 s => for_ (f0 + 1) n (fun f1 s => sortStep faVe f0 f1 s) s) s.

(** Models std::sort of a face's elements, tools/edge_v/src/mesh/Mesh.cpp:306. *)
Definition sortFaEl (p : nat * option nat) : nat * option nat :=
  match p with (a, Some b) => if b <? a then (b, Some a) else p | _ => p end.

(** One element of normOrder; the loops 312-359 and 361-374 of the code are independent for different elements.
    Models tools/edge_v/src/mesh/Mesh.cpp:309-374. *)
Definition normEl (ty : elType) (crds : list pt) (faVe : list (list nat)) (e : elem) : res elem :=
  let '(ve, fa, ad) := e in
  let ve := sortNat ve in
  '(fa, ad) <- sortFaces (nElFas ty) faVe (fa, ad) ;;
  c <- mapM (fun v => rd crds v) ve ;;
  normVesFas ty c (ve, fa, ad).

(** Models tools/edge_v/src/mesh/Mesh.cpp:288-375 (normOrder): faces' vertices, faces' elements, elements. *)
Definition normOrder (ty : elType) (crds : list pt) (faVe : list (list nat)) (faEl : list (nat * option nat)) (els : list elem)
  : res (list (list nat) * list (nat * option nat) * list elem) :=
  let faVe := map sortNat faVe in
  let faEl := map sortFaEl faEl in
  els <- mapM (normEl ty crds faVe) els ;;
  Ok (faVe, faEl, els).

(** ** Faces *)

(** Models tools/edge_v/src/mesh/Mesh.cpp:402-410 (struct Face); the unused entries of ves are omitted. *)
Record face := mkFace { fcEl : nat; fcFa : nat; fcVes : list nat }.

(** Models tools/edge_v/src/mesh/Mesh.cpp:411-424; [elFaVe]: the vertices of the faces of the elements. *)
Definition mkFaces (elFaVe : list (list (list nat))) : list face :=
  concat (mapi (fun el fas => mapi (fun fa ves => mkFace el fa (sortNat ves)) 0 fas) 0 elFaVe).

(** Do two faces share [n] vertices?  Models tools/edge_v/src/mesh/Mesh.cpp:436-443 and 518-524. *)
Definition sameFace (n : nat) (a b : face) : bool :=
  length (filter (fun p => fst p =? snd p) (combine (fcVes a) (fcVes b))) =? n.

(** Models tools/edge_v/src/mesh/Mesh.cpp:433-446. *)
Fixpoint nFasInt (n : nat) (m : list face) : nat :=
  match m with
  | a :: m' => (match m' with b :: _ => if sameFace n a b then 1 else 0 | [] => 0 end) + nFasInt n m'
  | [] => 0
  end.

(** l_mapId, m_faVe, m_faEl (one entry appended per face), m_elFa, m_elFaEl *)
Record conn := mkConn { cMap : nat; cFaVe : list (list nat); cFaEl : list (nat * option nat);
                        cElFa : list (list (option nat)); cElFaEl : list (list (option nat)) }.

(** One face.  Models tools/edge_v/src/mesh/Mesh.cpp:515-548. *)
Definition assignFace (n : nat) (m : list face) (fa : nat) (c : conn) : res conn :=
  isInt <- (if cMap c <? length m - 1
            then f <- rd m (cMap c) ;; g <- rd m (cMap c + 1) ;; Ok (sameFace n f g) else Ok false) ;;
  f <- rd m (cMap c) ;;
  elFa <- wr2 (cElFa c) (fcEl f) (fcFa f) (Some fa) ;;
  if (isInt : bool) then
    g <- rd m (cMap c + 1) ;;
    elFa <- wr2 elFa (fcEl g) (fcFa g) (Some fa) ;;
    elFaEl <- wr2 (cElFaEl c) (fcEl f) (fcFa f) (Some (fcEl g)) ;;
    elFaEl <- wr2 elFaEl (fcEl g) (fcFa g) (Some (fcEl f)) ;;
    Ok (mkConn (cMap c + 2) (cFaVe c ++ [fcVes f]) (cFaEl c ++ [(fcEl f, Some (fcEl g))]) elFa elFaEl)
  else Ok (mkConn (cMap c + 1) (cFaVe c ++ [fcVes f]) (cFaEl c ++ [(fcEl f, None)]) elFa (cElFaEl c)).

(** Models tools/edge_v/src/mesh/Mesh.cpp:398-549: faces of the elements, sorting, number of faces, assignment. *)
Definition connect (ty : elType) (elFaVe : list (list (list nat))) : res conn :=
  let m := srt face (fun a b => lexLt (fcVes a) (fcVes b)) (mkFaces elFaVe) in
  let nInt := nFasInt (nFaVes ty) m in
  let nFas := nInt + (length m - nInt * 2) in
  let none := repeat (repeat None (nElFas ty)) (length elFaVe) in
  for_ 0 nFas (assignFace (nFaVes ty) m) (mkConn 0 [] [] none none).

(** The value has to be valid.  Models the checks of tools/edge_v/src/mesh/Mesh.cpp:604-606. *)
Definition valid (o : option nat) : res nat := match o with Some x => Ok x | None => Er Echeck end.

(** ** Sparse types of faces *)

(** Models tools/edge_v/src/mesh/Mesh.cpp:92-127 (addSparseTypeEn); [sp]: the remaining sparse entities. *)
Fixpoint addSparseTypeEn (n : nat) (de : list (list nat)) (sp : list (list nat)) (t : N) (tys : list N) : res (list N) :=
  match de, tys with
  | v :: de', ty :: tys' =>
      match sp with
      | [] => Ok tys
      | w :: sp' =>
          if length (filter (fun p => fst p =? snd p) (combine v w)) =? n
          then tys' <- addSparseTypeEn n de' sp' t tys' ;; Ok (N.lor ty t :: tys')
          else tys' <- addSparseTypeEn n de' sp t tys' ;; Ok (ty :: tys')
      end
  | _, _ => match sp with [] => Ok tys | _ => Er Echeck end
  end.

(** Models tools/edge_v/src/mesh/Mesh.cpp:555-586; a physical group: its number and the vertices of its faces. *)
Definition addGroup (ty : elType) (faVe : list (list nat)) (g : N * list (list nat)) (tys : list N) : res (list N) :=
  '(rows, _) <- sortLex (map sortNat (snd g)) ;; addSparseTypeEn (nFaVes ty) faVe rows (fst g) tys.
Fixpoint addGroups (ty : elType) (faVe : list (list nat)) (gs : list (N * list (list nat))) (tys : list N) : res (list N) :=
  match gs with
  | [] => Ok tys
  | g :: gs => tys <- addGroup ty faVe g tys ;; addGroups ty faVe gs tys
  end.

(** ** Periodic boundaries *)

Definition eqCrd (a b : Q) : bool := Qltb (Qabs (a - b)) tol.

(** all pairs of vertices of two faces *)
Definition facePairs (faVe : list (list nat)) (f0 f1 : nat) : res (list (nat * nat)) :=
  v0 <- rd faVe f0 ;; v1 <- rd faVe f1 ;; Ok (list_prod v0 v1).

(** First dimension with [limit] matching coordinates.  Models tools/edge_v/src/mesh/Mesh.cpp:181-203 (l_eqDi). *)
Fixpoint eqDi (crds : list pt) (pairs : list (nat * nat)) (limit n di : nat) : res (option nat) :=
  match n with
  | 0 => Ok None
  | S n =>
      l <- mapM (fun p => a <- rd crds (fst p) ;; b <- rd crds (snd p) ;; Ok (eqCrd (crd a di) (crd b di))) pairs ;;
      if length (filter (fun b : bool => b) l) =? limit then Ok (Some di) else eqDi crds pairs limit n (S di)
  end.

(** Number of pairs of vertices which match up to one dimension.  Models tools/edge_v/src/mesh/Mesh.cpp:205-228 (l_maVes). *)
Definition maVes (crds : list pt) (pairs : list (nat * nat)) (n : nat) (fixed : option nat) : res nat :=
  l <- mapM (fun p => a <- rd crds (fst p) ;; b <- rd crds (snd p) ;;
         Ok (length (filter (fun di => negb (match fixed with Some f => di =? f | None => false end) && eqCrd (crd a di) (crd b di))
                            (seq 0 n)) =? n - 1)) pairs ;;
  Ok (length (filter (fun b : bool => b) l)).

Definition eqOpt (a b : option nat) : bool :=
  match a, b with Some x, Some y => x =? y | None, None => true | _, _ => false end.

(** Partners of the periodic faces [bnd] (positions in [bnd]).  Models tools/edge_v/src/mesh/Mesh.cpp:230-252. *)
Definition findPairs (ty : elType) (crds : list pt) (faVe : list (list nat)) (bnd : list nat) : res (list (option nat)) :=
  let n := nFaVes ty in
  for_ 0 (length bnd) (fun f0 prs =>
    i0 <- rd bnd f0 ;; p00 <- facePairs faVe i0 i0 ;; d0 <- eqDi crds p00 (n * n) (nDis ty) 0 ;;
    prs <- for_ 0 (length bnd) (fun f1 prs =>
      i1 <- rd bnd f1 ;; p11 <- facePairs faVe i1 i1 ;; d1 <- eqDi crds p11 (n * n) (nDis ty) 0 ;;
      if eqOpt d0 d1 then
        p01 <- facePairs faVe i0 i1 ;; k <- maVes crds p01 (nDis ty) d0 ;;
        Ok (if negb (f0 =? f1) && (k =? n) then prs ++ [Some f1] else prs)
      else Ok prs) prs ;;
    Ok (if length prs =? f0 + 1 then prs else prs ++ [None])) [].

(** Models tools/edge_v/src/mesh/Mesh.cpp:254-260, the checks of the partners. *)
Definition checkPairs (bnd : list nat) (prs : list (option nat)) : res unit :=
  _ <- check (length prs =? length bnd) ;;
  for_ 0 (length prs) (fun f _ =>
    o <- rd prs f ;;
    match o with None => Ok tt | Some g => p <- rd prs g ;; check (match p with Some x => x =? f | None => false end) end) tt.

(** io_faEl, io_elFaEl, o_pFasGt *)
Definition perState : Type := list (nat * option nat) * list (list (option nat)) * list nat.

(** Inserts the elements across one periodic face.  Models tools/edge_v/src/mesh/Mesh.cpp:262-285. *)
Definition joinFace (bnd : list nat) (prs : list (option nat)) (elFa : list (list nat)) (f0 : nat) (s : perState) : res perState :=
  let '(faEl, elFaEl, gt) := s in
  o <- rd prs f0 ;;
  match o with
  | None => Ok s
  | Some f1 =>
      i0 <- rd bnd f0 ;; i1 <- rd bnd f1 ;;
      e0 <- rd faEl i0 ;; e1 <- rd faEl i1 ;;
      faEl <- wr faEl i0 (fst e0, Some (fst e1)) ;;
      row <- rd elFa (fst e0) ;;
      elFaEl <- for_ 0 (length row) (fun ad elFaEl =>
        f <- rd row ad ;; if f =? i0 then wr2 elFaEl (fst e0) ad (Some (fst e1)) else Ok elFaEl) elFaEl ;;
      Ok (faEl, elFaEl, if fst e1 <? fst e0 then gt ++ [i0] else gt)
  end.

(** Models tools/edge_v/src/mesh/Mesh.cpp:157-286 (setPeriodicBnds). *)
Definition setPeriodicBnds (ty : elType) (bndTy : N) (tys : list N) (faVe : list (list nat)) (crds : list pt)
    (faEl : list (nat * option nat)) (elFa : list (list nat)) (elFaEl : list (list (option nat))) : res perState :=
  bnd <- for_ 0 (length faVe) (fun fa bnd =>
    t <- rd tys fa ;;
    if N.eqb t bndTy then e <- rd faEl fa ;; _ <- check (match snd e with None => true | Some _ => false end) ;; Ok (bnd ++ [fa])
    else Ok bnd) [] ;;
  prs <- findPairs ty crds faVe bnd ;;
  _ <- checkPairs bnd prs ;;
  for_ 0 (length prs) (joinFace bnd prs elFa) (faEl, elFaEl, []).

(** ** Constructor *)

(** What a mesh provides: faces' vertices, faces' elements, faces' sparse types, elements. *)
Record mesh := mkMesh { mFaVe : list (list nat); mFaEl : list (nat * option nat); mSpFa : list N; mEls : list elem }.

(** Models tools/edge_v/src/mesh/Mesh.cpp:641-648: reverses the elements of a face; max() never occurs here. *)
Definition revFaEl (p : nat * option nat) : nat * option nat :=
  match p with (a, Some b) => (b, Some a) | _ => p end.
Fixpoint reverse (fas : list nat) (faEl : list (nat * option nat)) : res (list (nat * option nat)) :=
  match fas with
  | [] => Ok faEl
  | f :: fas => p <- rd faEl f ;; faEl <- wr faEl f (revFaEl p) ;; reverse fas faEl
  end.

(** Models tools/edge_v/src/mesh/Mesh.cpp:377-649 (constructor): vertices, elements' vertices and faces' vertices as given by Gmsh
    (after the conversion of tags to ids), physical groups of faces, boundary type of periodic faces ([None]: no periodic
    boundaries).  Simplification: the in-diameters are not part of the model. *)
Definition mkMeshOf (ty : elType) (crds : list pt) (elVe : list (list nat)) (elFaVe : list (list (list nat)))
    (groups : list (N * list (list nat))) (periodic : option N) : res mesh :=
  _ <- check (0 <? length crds) ;;
  _ <- check (0 <? length elVe) ;;
  c <- connect ty elFaVe ;;
  tys <- addGroups ty (cFaVe c) groups (repeat 0%N (length (cFaVe c))) ;;
  elFa <- mapM (mapM valid) (cElFa c) ;;
  '(faEl, elFaEl, gt) <- match periodic with
     | Some t => setPeriodicBnds ty t tys (cFaVe c) crds (cFaEl c) elFa (cElFaEl c)
     | None => Ok (cFaEl c, cElFaEl c, [])
     end ;;
  '(faVe, faEl, els) <- normOrder ty crds (cFaVe c) faEl (combine (combine elVe elFa) elFaEl) ;;
  faEl <- reverse gt faEl ;;
  Ok (mkMesh faVe faEl tys els).

(** ** Ids of the adjacent faces and vertices *)

(** First of [n] faces of the adjacent element, beginning at face [ad], which leads to [el].  Models
    tools/edge_v/src/geom/Generic.cpp:108-114. *)
Fixpoint findFace (row : list (option nat)) (el n ad : nat) : res nat :=
  match n with
  | 0 => Er Eub
  | S n => o <- rd row ad ;;
           if (match o with Some x => x =? el | None => false end) then Ok ad
           else _ <- check (negb (n =? 0)) ;; findFace row el n (S ad)
  end.

(** One face.  Models tools/edge_v/src/geom/Generic.cpp:101-115 (getFaIdsAd); [el] includes the offset. *)
Definition faIdAd (ty : elType) (els : list elem) (el fa : nat) : res nat :=
  e <- rd els el ;; o <- rd (snd e) fa ;; elAd <- valid o ;;
  a <- rd els elAd ;; findFace (snd a) el (nElFas ty) 0.

(** Models tools/edge_v/src/geom/Generic.cpp:92-116 (getFaIdsAd). *)
Definition getFaIdsAd (ty : elType) (els : list elem) (off : nat) (el fa : list nat) : res (list nat) :=
  mapM (fun p => faIdAd ty els (fst p + off) (snd p)) (combine el fa).

(** Last position of vertex [v].  Models tools/edge_v/src/geom/Tet4.cpp:134-137. *)
Definition lastVe (v : nat) (l : list nat) : res (option nat) :=
  for_ 0 4 (fun i p => x <- rd l i ;; Ok (if x =? v then Some i else p)) None.

Definition dist2 (a b : pt) : Q :=
  let d i := (crd a i - crd b i)%Q in (0 + d 0%nat * d 0%nat + d 1%nat * d 1%nat + d 2%nat * d 2%nat)%Q.

(** Search by coordinates.  Models tools/edge_v/src/geom/Tet4.cpp:139-175. *)
Definition veByCrds (crds : list pt) (v : nat) (l : list nat) : res (option nat) :=
  for_ 0 4 (fun i p =>
    x <- rd l i ;; a <- rd crds v ;; b <- rd crds x ;;
    if length (filter (fun di => eqCrd (crd a di) (crd b di)) [0; 1; 2]) =? 2 then
      match p with
      | None => Ok (Some i)
      | Some j => y <- rd l j ;; c <- rd crds y ;; Ok (if Qltb (dist2 a c) (dist2 a b) then Some i else p)
      end
    else Ok p) None.

(** Position of vertex [ve] of an element within its face [fa].  Models tools/edge_v/src/geom/Tet4.cpp:203-227. *)
Definition vePos (fa ve : nat) : res nat :=
  match fa, ve with
  | 0, 0 => Ok 0 | 0, 2 => Ok 1 | 0, 1 => Ok 2
  | 1, 0 => Ok 0 | 1, 1 => Ok 1 | 1, 3 => Ok 2
  | 2, 0 => Ok 0 | 2, 3 => Ok 1 | 2, 2 => Ok 2
  | 3, 1 => Ok 0 | 3, 2 => Ok 1 | 3, 3 => Ok 2
  | _, _ => Er Echeck
  end.

(** One face.  Models tools/edge_v/src/geom/Tet4.cpp:123-228 (getVeIdsAd); [crds]: [None] for a null pointer. *)
Definition veIdAdTet (crds : option (list pt)) (els : list elem) (el fa : nat) : res nat :=
  e <- rd els el ;; o <- rd (snd e) fa ;; elAd <- match o with Some x => Ok x | None => Er Eub end ;;
  ve0 <- rd (fst (fst e)) (if fa <=? 2 then 0 else 1) ;;
  a <- rd els elAd ;;
  p <- lastVe ve0 (fst (fst a)) ;;
  p <- match p, crds with None, Some crds => veByCrds crds ve0 (fst (fst a)) | _, _ => Ok p end ;;
  veAd <- valid p ;;
  faAd <- faIdAd TET4 els el fa ;;
  vePos faAd veAd.

(** Models tools/edge_v/src/geom/Geom.cpp:175-203 (getVeIdsAd). *)
Definition getVeIdsAd (ty : elType) (crds : option (list pt)) (els : list elem) (off : nat) (el fa : list nat) : res (list nat) :=
  mapM (fun p => match ty with TET4 => veIdAdTet crds els (fst p + off) (snd p) | _ => Ok 0 end) (combine el fa).

(** ** Gmsh *)

(** Position of the first entry not less than [x] (std::lower_bound in a sorted list), and the checks.
    Models tools/edge_v/src/io/Gmsh.cpp:86-97 (getId). *)
Fixpoint lowerBound (x : nat) (l : list nat) : nat :=
  match l with [] => 0 | y :: l => if y <? x then S (lowerBound x l) else 0 end.
Definition getId (x : nat) (l : list nat) : res nat :=
  let p := lowerBound x l in
  y <- match nth_error l p with Some y => Ok y | None => Er Echeck end ;;
  _ <- check (y =? x) ;; Ok p.

(** Vertices in ascending order of their tags, without repetitions.  Models tools/edge_v/src/io/Gmsh.cpp:132-163; [tags], [crds]:
    the answer of Gmsh. *)
Fixpoint dedup (perm : list nat) (tags : list nat) (crds : list pt) (s : list nat * list pt) : res (list nat * list pt) :=
  match perm with
  | [] => Ok s
  | pe :: perm =>
      t <- rd tags pe ;;
      if negb (length (fst s) =? 0) && (last (fst s) 0 =? t) then dedup perm tags crds s
      else c <- rd crds pe ;; dedup perm tags crds (fst s ++ [t], snd s ++ [c])
  end.
Definition readVes (tags : list nat) (crds : list pt) : res (list nat * list pt) :=
  let perm := srt nat (fun a b => nth a tags 0 <? nth b tags 0) (seq 0 (length tags)) in
  '(t, c) <- dedup perm tags crds ([], []) ;;
  _ <- for_ 1 (length t) (fun i _ => a <- rd t (i - 1) ;; b <- rd t i ;; check (a <? b)) tt ;;
  Ok (t, c).

(** The permutation handed to Gmsh.  Models tools/edge_v/src/io/Gmsh.cpp:386-395 (reorder). *)
Definition reorderPerm (n : nat) (prio : list nat) : list nat :=
  srt nat (fun a b => nth a prio 0 <? nth b prio 0) (seq 0 n).

End Sort.
