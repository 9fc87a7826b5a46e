(** Local time stepping relations of the elements: model of edge::mesh::EdgeV::setLtsTypes and of the selection of time
    buffers in edge::seismic::solvers::AderDg; sparse types of domains, edge::mesh::SparseTypes.

    Integers are [nat]; bit fields are [N]; std::numeric_limits< T >::max() as id or time group is [None]. *)
From Coq Require Import QArith.
From Verif Require Import Util Sparse.
Open Scope nat_scope.

(** Search for the time group whose range of elements contains [el], starting at time group [tg] with first element [first];
    also returns l_first.  Models src/mesh/EdgeV.cpp:76-81 (and 84-89). *)
Fixpoint findTg (tg first : nat) (sizes : list nat) (el : nat) : option nat * nat :=
  match sizes with
  | [] => (None, first)
  | n :: sizes => if (first <=? el) && (el <? first + n) then (Some tg, first) else findTg (S tg) (first + n) sizes el
  end.

(** Models src/mesh/EdgeV.cpp:72-94 (lambda l_getTg). *)
Definition getTg (nIn nSe : list nat) (el : nat) : res nat :=
  match findTg 0 0 nIn el with
  | (Some tg, _) => Ok tg
  | (None, first) => match findTg 0 first nSe el with (Some tg, _) => Ok tg | (None, _) => Er Echeck end
  end.

(** Search in [n] entries of the lists of faces, beginning at [co].  Models src/mesh/EdgeV.cpp:112-117. *)
Fixpoint searchCo (sendFa sendEl : list nat) (el fa n co : nat) : res bool :=
  match n with
  | 0 => Ok false
  | S n => f <- rd sendFa co ;;
           if fa =? f then e <- rd sendEl co ;; if el =? e then Ok true else searchCo sendFa sendEl el fa n (S co)
           else searchCo sendFa sendEl el fa n (S co)
  end.

(** Search in [n] channels, beginning at channel [ch], whose first face is [first].  Models src/mesh/EdgeV.cpp:108-119. *)
Fixpoint searchChs (cs sendFa sendEl : list nat) (el fa n ch first : nat) : res (option nat) :=
  match n with
  | 0 => Ok None
  | S n => tgAd <- rd cs (1 + ch * 4 + 2) ;; nSeRe <- rd cs (1 + ch * 4 + 3) ;;
           b <- searchCo sendFa sendEl el fa nSeRe first ;;
           if (b : bool) then Ok (Some tgAd) else searchChs cs sendFa sendEl el fa n (S ch) (first + nSeRe)
  end.

(** communication structure, i_sendFa and i_sendEl of a distributed mesh; [None]: null pointers *)
Definition comm := option (list nat * list nat * list nat).

(** Models src/mesh/EdgeV.cpp:97-122 (lambda l_getTgComm). *)
Definition getTgComm (cm : comm) (el fa : nat) : res (option nat) :=
  match cm with
  | None => Ok None
  | Some (cs, sendFa, sendEl) => n <- rd cs 0 ;; searchChs cs sendFa sendEl el fa n 0 0
  end.

(** masks of the flags: i_elEq, i_elLt, i_elGt, i_adEq, i_adLt, i_adGt *)
Record ltsFlags := mkFlags { fElEq : N; fElLt : N; fElGt : N; fAdEq : list N; fAdLt : list N; fAdGt : list N }.

(** Time group of the element behind face [fa].  Models src/mesh/EdgeV.cpp:135-153. *)
Definition getTgAd (nElFas : nat) (elFaEl : list (option nat)) (nIn nSe : list nat) (cm : comm) (el tgEl fa : nat) : res nat :=
  ad <- rd elFaEl (el * nElFas + fa) ;;
  match ad with
  | None => t <- getTgComm cm el fa ;; Ok (match t with None => tgEl | Some t => t end)
  | Some ad => getTg nIn nSe ad
  end.

(** One face: flags of the element's sparse type and l_elEq, l_elLt, l_elGt.  Models src/mesh/EdgeV.cpp:134-170. *)
Definition ltsFace (fl : ltsFlags) nElFas elFaEl nIn nSe cm (el tgEl fa : nat) (s : list N * bool * bool * bool) : res (list N * bool * bool * bool) :=
  let '(sp, eq, lt, gt) := s in
  tgAd <- getTgAd nElFas elFaEl nIn nSe cm el tgEl fa ;;
  c <- rd sp el ;;
  if tgEl =? tgAd then
    m <- rd (fAdEq fl) fa ;; sp <- wr sp el (N.lor c m) ;; Ok (sp, true, lt, gt)
  else if tgEl <? tgAd then
    _ <- check (tgEl + 1 =? tgAd) ;;
    m <- rd (fAdLt fl) fa ;; sp <- wr sp el (N.lor c m) ;; Ok (sp, eq, true, gt)
  else
    _ <- check (tgEl =? tgAd + 1) ;;
    m <- rd (fAdGt fl) fa ;; sp <- wr sp el (N.lor c m) ;; Ok (sp, eq, lt, true).

(** One element.  Models src/mesh/EdgeV.cpp:126-182. *)
Definition ltsEl (fl : ltsFlags) nElFas elFaEl nIn nSe cm (el : nat) (sp : list N) : res (list N) :=
  tgEl <- getTg nIn nSe el ;;
  '(sp, eq, lt, gt) <- for_ 0 nElFas (ltsFace fl nElFas elFaEl nIn nSe cm el tgEl) (sp, false, false, false) ;;
  sp <- (if (eq : bool) then c <- rd sp el ;; wr sp el (N.lor c (fElEq fl)) else Ok sp) ;;
  sp <- (if (lt : bool) then c <- rd sp el ;; wr sp el (N.lor c (fElLt fl)) else Ok sp) ;;
  if (gt : bool) then c <- rd sp el ;; wr sp el (N.lor c (fElGt fl)) else Ok sp.

(** Models src/mesh/EdgeV.cpp:55-180 (setLtsTypes). *)
Definition setLtsTypes (fl : ltsFlags) nEls nElFas elFaEl nIn nSe cm (sp : list N) : res (list N) :=
  for_ 0 nEls (ltsEl fl nElFas elFaEl nIn nSe cm) sp.

(** The flags of the solvers.  Models src/dg/const_ader.inc:46-131 (C_LTS_EL and C_LTS_AD), of which setLtsTypes gets the
    columns (src/mesh/EdgeV.cpp:342-349). *)
Definition aderFlags : ltsFlags := mkFlags 4294967296 8589934592 17179869184
  [68719476736; 549755813888; 4398046511104; 35184372088832; 281474976710656; 2251799813685248]%N
  [137438953472; 1099511627776; 8796093022208; 70368744177664; 562949953421312; 4503599627370496]%N
  [274877906944; 2199023255552; 17592186044416; 140737488355328; 1125899906842624; 9007199254740992]%N.

(** The overload called by the solvers: the flags are determined in a temporary array and added to the elements' sparse types.
    Models src/mesh/EdgeV.cpp:336-379. *)
Definition addLtsTypes (fl : ltsFlags) nEls nElFas elFaEl nIn nSe cm (chars : list N) : res (list N) :=
  tys <- setLtsTypes fl nEls nElFas elFaEl nIn nSe cm (repeat 0%N nEls) ;;
  for_ 0 nEls (fun el chars => c <- rd chars el ;; t <- rd tys el ;; wr chars el (N.lor c t)) chars.

(** The time buffers of the adjacent element from which a neighbouring update of an element with sparse type [c] reads at face
    [fa]; [firstTs]: first of the two steps.  Models src/impl/seismic/solvers/AderDg.hpp:620-674 for an adjacent element on
    the same rank. *)
Definition buffersRead (fl : ltsFlags) (c : N) (fa : nat) (firstTs : bool) : res (list nat) :=
  eq <- rd (fAdEq fl) fa ;; gt <- rd (fAdGt fl) fa ;;
  Ok (if has c eq then [0] else if has c gt then [1] else if firstTs then [2] else [0; 2]).

(** The time buffers of an element with sparse type [c] which its local update writes.  Models
    src/impl/seismic/solvers/AderDg.hpp:377-417. *)
Definition buffersWritten (fl : ltsFlags) (c : N) : list nat :=
  0 :: (if has c (fElLt fl) then [1] else []) ++ (if has c (fElGt fl) then [2] else []).

(** * Sparse types of domains *)

(** The query of a domain, the intersection of its geometric objects; [inside]: an object's query.  Models
    src/linalg/Domain.hpp:94-104 (inside). *)
Fixpoint domInside {V O} (inside : O -> V -> bool) (objs : list O) (pt : V) : bool :=
  match objs with
  | [] => true
  | o :: objs => if inside o pt then domInside inside objs pt else false
  end.

(** Half-space: origin and (normalized) normal.  The arithmetic is exact (over Q) instead of floating point; the normalization
    of the normal in the constructor is not modelled. *)
Record halfSpace := mkHs { hsOrigin : list Q; hsNormal : list Q }.

(** Scalar product over all dimensions.  Models src/linalg/Geom.hpp (sprod1, sprod2, sprod3). *)
Fixpoint sprod (a b : list Q) : Q :=
  match a, b with
  | x :: a, y :: b => x * y + sprod a b
  | _, _ => 0
  end%Q.

(** Difference of two points.  Models src/linalg/HalfSpace.hpp:149-153. *)
Fixpoint vsub (a b : list Q) : list Q :=
  match a, b with
  | x :: a, y :: b => (x - y)%Q :: vsub a b
  | _, _ => []
  end.

(** Models src/linalg/HalfSpace.hpp:146-170 (inside). *)
Definition hsInside (tol : Q) (h : halfSpace) (pt : list Q) : bool :=
  negb (Qle_bool (sprod (hsNormal h) (vsub pt (hsOrigin h))) tol).

(** Are all vertices of the entity inside of the domain?  Models src/mesh/SparseTypes.hpp:80-92; [inside]: the domain's query. *)
Fixpoint allInside {V} (inside : V -> bool) (veChars : list V) (ves : list nat) : res bool :=
  match ves with
  | [] => Ok true
  | v :: ves => x <- rd veChars v ;; if inside x then allInside inside veChars ves else Ok false
  end.

(** Models src/mesh/SparseTypes.hpp:69-100 (set); a domain is given by its query. *)
Definition setSpTypes {V} (nEnts : nat) (enVe : list (list nat)) (spTypes : list N) (doms : list (V -> bool)) (veChars : list V) (chars : list N) : res (list N) :=
  for_ 0 nEnts (fun en chars =>
    for_ 0 (length doms) (fun d chars =>
      dom <- rd doms d ;; ves <- rd enVe en ;;
      b <- allInside dom veChars ves ;;
      if (b : bool) then t <- rd spTypes d ;; c <- rd chars en ;; wr chars en (N.lor c t) else Ok chars) chars) chars.
