(** Output of internal boundaries: src/io/InternalBoundary.hpp.

    Numbers are of an arbitrary type with a zero; the conversion to single precision is not modelled. The mapping of the elements (linalg/Mappings.hpp refToPhy) is a parameter. The parallel loops write disjoint entries and are modelled sequentially.
    Paths and the format of the file are not modelled: a file is the list of points, the list of cells and the values of the quantities handed over to the VTK writer (submodules/visit_writer/visit_writer.cpp 1149-1201). *)
From Coq Require Import List Arith Bool ZArith.
From Verif Require Import Util Comm SubGrid.
Import ListNotations.
Open Scope nat_scope.

Section IbWriter.
  Variable (T : Type) (zero : T) (phy : list (list T) -> list T -> res (list T)).

  (** [bfBe]: boundary elements of the boundary faces, [beEl]: elements of the boundary elements, [elVe]: vertices of the elements, [crdVe], [crdSv]: coordinates of the vertices and of the sub-vertices, [fIds]: local ids of the boundary faces *)
  Record conn := { bfBe : list (list nat); beEl : list nat; elVe : list (list nat); crdVe : list (list T); crdSv : list (list T); fIds : list (list nat) }.
  (** InternalBoundary.hpp 267-274: coordinates of an element's vertices, by dimension *)
  Definition veCrds (nDis : nat) (I : conn) (el : nat) : res (list (list T)) := ves <- rd (elVe I) el ;; mapM (fun di => mapM (fun ve => rd2 (crdVe I) ve di) ves) (seq 0 nDis).
  (** InternalBoundary.hpp 285-293: zeros, the first entries are overwritten *)
  Definition pad3 (x : list T) : list T := firstn 3 (x ++ [zero; zero; zero]).
  (** InternalBoundary.hpp 260-302: points and cells of a boundary face *)
  Definition initBf (nDis nSfs nFaVes nFaSvs : nat) (I : conn) (l : list (list (list nat))) (r : list (list Z)) (bf : nat) : res (list (list T) * list (list nat)) :=
    be <- rd2 (bfBe I) bf 0 ;; el <- rd (beEl I) be ;; fId <- rd2 (fIds I) bf 0 ;;
    ves <- veCrds nDis I el ;;
    pts <- mapM (fun sv => id <- rd2 r fId sv ;; xi <- rd (crdSv I) (Z.to_nat id) ;; x <- phy ves xi ;; Ok (pad3 x)) (seq 0 nFaSvs) ;;
    rows <- rd l fId ;;
    cells <- mapM (fun sf => mapM (fun ve => c <- rd2 rows sf ve ;; Ok (bf * nFaSvs + c)) (seq 0 nFaVes)) (seq 0 nSfs) ;;
    Ok (pts, cells).
  (** InternalBoundary.hpp 239-304 *)
  Definition init (hex : bool) (nDis nFas nSfs nFaVes nFaSvs nScs nBf : nat) (scSv : list (list Z)) (o_l : list (list (list nat))) (o_r : list (list Z)) (I : conn) : res (list (list (list T) * list (list nat))) :=
    g <- faSg hex nFas nSfs nFaVes nFaSvs nScs scSv o_l o_r ;; mapM (initBf nDis nSfs nFaVes nFaSvs I (fst g) (snd g)) (seq 0 nBf).

  (** InternalBoundary.hpp 109-142; ids are non-negative here *)
  Definition copy (nSfs first size nQts stride : nat) (data buf : list T) : res (list T) :=
    _ <- check (0 <? nQts) ;; _ <- check (1 <=? stride) ;;
    for_ first (first + size) (fun bf => for_ 0 nSfs (fun sf => for_ 0 nQts (fun qt buf =>
      let bId := qt * size * nSfs + (bf - first) * nSfs + sf in
      let dId := bf * stride * nSfs + sf * stride + qt in
      x <- rd data dId ;; wr buf bId x))) buf.

  Record file := { pts : list (list T); cells : list (list nat); vals : list (list T) }.
  (** [n] entries from entry [off] on *)
  Definition slice {A} (off n : nat) (l : list A) : res (list A) := if off + n <=? length l then Ok (firstn n (skipn off l)) else Er Eub.
  (** InternalBoundary.hpp 317-357, with the pointers of lines 144-146; None: nothing is written *)
  Definition write (nSfs nFaSvs first size nQts stride : nat) (grid : list (list (list T) * list (list nat))) (data buf : list T) : res (option file * list T) :=
    if size =? 0 then Ok (None, buf) else
    _ <- check (negb (stride =? 0)) ;; _ <- check (nQts <=? stride) ;;
    buf <- copy nSfs first size nQts stride data buf ;;
    p <- slice (first * nFaSvs) (size * nFaSvs) (concat (map fst grid)) ;;
    c <- slice (first * nSfs) (size * nSfs) (concat (map snd grid)) ;;
    v <- mapM (fun qt => slice (qt * size * nSfs) (size * nSfs) buf) (seq 0 nQts) ;;
    Ok (Some {| pts := p; cells := c; vals := v |}, buf).
End IbWriter.
