(** From the tables of the pre-processing to the tables of the solver: tools/edge_pre/edge_pre/io/ArrStr.py, tools/edge_pre/cpp.py, submodules/SConscript, src/sc/Init.hpp.

    Text is modelled as a list of lines, a line as the list of its fields; reading back a written number gives the number (str, float and the C++ compiler are not modelled). Sizes are natural numbers (no overflow of unsigned shorts), ids are integers with the values of the unsigned shorts. Numbers are of an arbitrary type, the conversion of doubles to the solver's precision is not modelled. *)
From Coq Require Import List Arith Bool ZArith.
From Verif Require Import Util Comm SubGrid.
Import ListNotations.
Open Scope nat_scope.

Section Csv.
  (** fields of the files, entries of the C++ arrays and their initialization; [conv]: entry of the array by field, the build may fail *)
  Variable (F V : Type) (zero : V) (conv : F -> res V).

  (** ArrStr.py 30-41 (float2d), 49-60 (int2d): a line per row *)
  Definition write2d (t : list (list F)) : list (list F) := flat_map (fun d1 => [d1]) t.
  (** ArrStr.py 68-82 (int3d), 90-104 (float3d): blocks end with an empty line *)
  Definition write3d (t : list (list (list F))) : list (list F) := flat_map (fun d1 => flat_map (fun d2 => [d2]) d1 ++ [[]]) t.

  (** cpp.py 62, 65: an empty line *)
  Definition blank (ro : list F) : bool := match ro with [] => true | _ => false end.
  (** cpp.py 59-66: dimensions after one more line *)
  Definition dim (d : nat * nat * nat) (ro : list F) : nat * nat * nat :=
    let '(d0, d1, d2) := d in
    let d0 := if d1 =? 0 then length ro else d0 in
    let d1 := if negb (blank ro) && (d2 =? 0) then d1 + 1 else d1 in
    let d2 := if blank ro then d2 + 1 else d2 in
    (d0, d1, d2).
  (** the reader's readline: nothing at the end of the file *)
  Definition readline (f : list (list F)) : list F * list (list F) := match f with [] => ([], []) | l :: f => (l, f) end.
  (** cpp.py 80-83: lines of a block, and the rest of the file *)
  Fixpoint block (d1 : nat) (f : list (list F)) : list (list F) * list (list F) :=
    match d1 with 0 => ([], f) | S d1 => let '(l, f) := readline f in let '(b, f) := block d1 f in (l :: b, f) end.
  (** cpp.py 77-87: the blocks; the line in between is skipped if there is more than one dimension of blocks *)
  Fixpoint blocks (skip : bool) (d2 d1 : nat) (f : list (list F)) : list (list (list F)) :=
    match d2 with 0 => [] | S d2 => let '(b, f) := block d1 f in let f := if skip then snd (readline f) else f in b :: blocks skip d2 d1 f end.
  (** initialization of a row of a C++ array with [d0] entries: too many initializers are an error of the compiler, missing ones are zeros *)
  Definition initRow (d0 : nat) (r : list F) : res (list V) := _ <- check (length r <=? d0) ;; r <- mapM conv r ;; Ok (r ++ repeat zero (d0 - length r)).
  (** cpp.py 50-125: the array's entries one after the other, and the size entry *)
  Definition convert (f : list (list F)) : res (list V * nat) :=
    let '(d0, d1, d2) := fold_left dim f (0, 0, 0) in
    _ <- check (0 <? d0) ;; _ <- check (0 <? d1) ;;
    rows <- mapM (initRow d0) (concat (blocks (0 <? d2) (Nat.max d2 1) d1 f)) ;;
    Ok (concat rows, d0 * d1 * Nat.max d2 1).
End Csv.

(** largest unsigned short, std::numeric_limits< unsigned short >::max() *)
Definition umax : Z := 65535.
(** SConscript 220-222, cpp.py 32-40: -1 is replaced by the largest unsigned short; other values out of the range are errors of the compiler (narrowing) *)
Definition toId (v : Z) : res Z := if (v =? -1)%Z then Ok umax else _ <- check ((0 <=? v)%Z && (v <=? umax)%Z) ;; Ok v.

Section Copy.
  Variable (V : Type) (raw : list V).
  (** "[...] = *l_ptr; l_ptr++;" *)
  Definition cell (ptr : nat) (_ : V) : res (nat * V) := x <- rd raw ptr ;; Ok (ptr + 1, x).
  (** a loop over the entries of an array around it *)
  Definition over {A} (inner : nat -> A -> res (nat * A)) (n ptr : nat) (o : list A) : res (nat * list A) :=
    for_ 0 n (fun i st => r <- rd (snd st) i ;; x <- inner (fst st) r ;; o <- wr (snd st) i (snd x) ;; Ok (fst x, o)) (ptr, o).
  (** nested loops of Init.hpp with a running pointer *)
  Definition copy2 (n m : nat) (o : list (list V)) : res (list (list V)) := x <- over (over cell m) n 0 o ;; Ok (snd x).
  (** the same with three loops *)
  Definition copy3 (k n m : nat) (o : list (list (list V))) : res (list (list (list V))) := x <- over (over (over cell m) n) k 0 o ;; Ok (snd x).
End Copy.

(** Init.hpp 139-155 *)
Definition getFaSfSc (nFas nSfs nScs : nat) (scSfSc : list (list Z)) (o : list (list Z)) : res (list (list Z)) :=
  for_ 0 nFas (fun f1 o => for_ 0 nSfs (fun sf o =>
    sc <- rd2 scSfSc (nScs + f1 * nSfs + sf) 0 ;;
    r <- rd o f1 ;; r <- wr r sf sc ;; o <- wr o f1 r ;;
    _ <- check (negb (sc =? umax)%Z) ;;
    _ <- for_ 1 nFas (fun f2 _ => x <- rd2 scSfSc (nScs + f1 * nSfs + sf) f2 ;; check (x =? umax)%Z) tt ;;
    Ok o) o) o.

(** raw arrays with their sizes *)
Record rawConn := { g_scsv : list Z * nat; g_scsfsc : list Z * nat; g_sctysf : list Z * nat; g_scdgad : list Z * nat }.
(** src/sc/SubCell.type 64-94: connectivity of the sub-grid; of scDgAd only the rows which are written, the array has a row per vertex of a face *)
Record conn := { scSv : list (list Z); scSfSc : list (list Z); faSfSc : list (list Z); scTySf : list (list Z); scDgAd : list (list Z) }.
(** Init.hpp 245 *)
Definition nOr (nDis nVesFa : nat) : nat := if nDis =? 3 then nVesFa else 1.
(** Init.hpp 166-261 *)
Definition connect (nDis nVesFa nVesEl nFas nSfs nScs : nat) (g : rawConn) (o : conn) : res conn :=
  let n := nScs + nFas * nSfs in
  _ <- check (snd (g_scsv g) =? n * nVesEl) ;;
  sv <- copy2 Z (fst (g_scsv g)) n nVesEl (scSv o) ;;
  _ <- check (snd (g_scsfsc g) =? n * nFas) ;;
  sc <- copy2 Z (fst (g_scsfsc g)) n nFas (scSfSc o) ;;
  fa <- getFaSfSc nFas nSfs nScs sc (faSfSc o) ;;
  _ <- check (snd (g_sctysf g) =? nScs * nFas) ;;
  ty <- copy2 Z (fst (g_sctysf g)) nScs nFas (scTySf o) ;;
  _ <- check (snd (g_scdgad g) =? nOr nDis nVesFa * nSfs) ;;
  ad <- copy2 Z (fst (g_scdgad g)) (nOr nDis nVesFa) nSfs (scDgAd o) ;;
  Ok {| scSv := sv; scSfSc := sc; faSfSc := fa; scTySf := ty; scDgAd := ad |}.

Section Ops.
  Variable (V : Type).
  (** Init.hpp 270-295 *)
  Definition svChars (nSvs nDis : nat) (g : list V * nat) (o : list (list V)) : res (list (list V)) := _ <- check (snd g =? nSvs * nDis) ;; copy2 V (fst g) nSvs nDis o.
  (** raw matrices with their sizes *)
  Record rawOps := { g_scatter : list V * nat; g_scattersurf : list V * nat; g_gather : list V * nat; g_sfint : list V * nat }.
  (** src/sc/SubCell.type 143-176 *)
  Record opsT := { scatter : list (list V); scatterSurf : list (list (list V)); gather : list (list V); sfInt : list (list (list V)) }.
  (** Init.hpp 121 *)
  Definition nScaSu (nDis nVesFa nFas : nat) : nat := if nDis <? 3 then 2 * nFas else nFas + nVesFa * nFas.
  (** Init.hpp 301-390 *)
  Definition ops (nDis nVesFa nFas nSfs nScs nMds : nat) (g : rawOps) (o : opsT) : res opsT :=
    _ <- check (snd (g_scatter g) =? nMds * nScs) ;;
    sca <- copy2 V (fst (g_scatter g)) nMds nScs (scatter o) ;;
    _ <- check (snd (g_scattersurf g) =? nMds * nScaSu nDis nVesFa nFas * nSfs) ;;
    su <- copy3 V (fst (g_scattersurf g)) (nScaSu nDis nVesFa nFas) nMds nSfs (scatterSurf o) ;;
    _ <- check (snd (g_gather g) =? nScs * nMds) ;;
    ga <- copy2 V (fst (g_gather g)) nScs nMds (gather o) ;;
    _ <- check (snd (g_sfint g) =? nFas * nSfs * nMds) ;;
    sf <- copy3 V (fst (g_sfint g)) nFas nSfs nMds (sfInt o) ;;
    Ok {| scatter := sca; scatterSurf := su; gather := ga; sfInt := sf |}.
End Ops.
