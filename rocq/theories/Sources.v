(** Point sources (src/impl/seismic/setups/PointSources.hpp).

    Simplifications of this file:
    - the type of the values, its operations and the integration of a time series are arbitrary, so that the results about values hold bit by
      bit; the conversion of the raw data from float is the identity;
    - the HDF5-file of a fused simulation is a record of its arrays [raw]; the search of the elements of the points (ptToEn, see Receivers.v) is
      part of it, an invalid element id is [None]; evaluated basis functions times inverse mass matrix and determinant are an oracle [basis], which
      yields nothing if one of the checks of the reference coordinates fails (lines 437-490);
    - the bits SOURCE and LIMIT of the sparse types of the elements are two lists of booleans;
    - std::sort is an arbitrary function [srt], which gets the key used by the comparison; the theorems assume that it returns an
      ascending permutation, ties are open;
    - allocated memory has arbitrary contents [memN], [memT]; parallel loops are sequential (their iterations write different
      entries, except for those of lines 829-831, where several sources of one element set the same bit). *)
From Verif Require Import Util.

Section Sources.
Variable T : Type.
Variables (add mul : T -> T -> T).
(** integration of a time series (linalg::Series<1>::integrate with i_na=0): time step, start, samples, bounds *)
Variable integ : T -> T -> list T -> T -> T -> T.
(** TL_N_QTS_SIM, TL_N_MDS, TL_N_CRS *)
Variables (nQt nMd nCr : nat).
Variable srt : (nat -> nat) -> list nat -> list nat.
Variable memN : nat -> list nat.
Variable memT : nat -> list T.

(** src/impl/seismic/setups/PointSources.hpp read by 214-292 and 536-700, data of one file: elements of the points, time parameters, scalings, time pointers and time series *)
Record raw := mkRaw { wEls : list (option nat); wTime : list T; wDt : list T; wSca : list (list T); wPtr : list nat; wTs : list T }.
(** src/impl/seismic/setups/PointSources.hpp 82-106 *)
Record ps := mkPs { pEl : list nat; pTime : list T; pDt : list T; pBas : list (list T); pSca : list (list T); pPtr : list nat; pTs : list T }.

(** src/impl/seismic/setups/PointSources.hpp 139-156: ids of the active sources and their elements *)
Definition getAcDu (els : list (option nat)) : res (list nat * list nat) :=
  for_ 0 (length els) (fun p '(ids, es) =>
    o <- rd els p;;
    match o with Some e => Ok (ids ++ [p], es ++ [e]) | None => Ok (ids, es) end) ([], []).

(** src/impl/seismic/setups/PointSources.hpp 167-186: the permutation and the inverse permutation *)
Definition getSrcPerms (elId : list nat) : list nat * list nat :=
  let n := length elId in
  let per := srt (fun a => nth a elId 0) (seq 0 n) in
  (per, srt (fun a => nth a per 0) (seq 0 n)).

(** src/impl/seismic/setups/PointSources.hpp 814-843: body of the loop over the fused simulations; state: flags SOURCE of the elements; returns also the elements and
    ids of the reordered sources (resize and assignment of l_srcElsP, l_srcIdsP are appends) *)
Definition initIds (w : raw) (flags : list bool) : res (list bool * (list nat * list nat)) :=
  '(ids, es) <- getAcDu (wEls w);;
  _ <- check (length es =? length ids);;
  flags <- for_ 0 (length es) (fun p fl => e <- rd es p;; wr fl e true) flags;;
  let '(per, _) := getSrcPerms es in
  r <- for_ 0 (length ids) (fun p '(eP, iP) =>
    k <- rd per p;; i <- rd ids k;; e <- rd es k;; Ok (eP ++ [e], iP ++ [i])) ([], []);;
  Ok (flags, r).

(** src/impl/seismic/setups/PointSources.hpp 309-372; the result has the dimensions [nElSrc+1][nCr] *)
Definition elSpPs (nEl : nat) (src lim : list bool) (srcElP : list (list nat)) : res (list nat) :=
  nElSrc <- for_ 0 nEl (fun el n =>
    s <- rd src el;;
    if (s : bool) then l <- rd lim el;; _ <- check (negb l);; Ok (n + 1) else Ok n) 0;;
  let o := memN (nCr * (nElSrc + 1)) in
  o <- for_ 0 nCr (fun cr o => wr o cr 0) o;;
  pt <- for_ 0 nCr (fun cr pt => wr pt cr 0) (memN nCr);;
  '(_, pt, o) <- for_ 0 nEl (fun el '(sp, pt, o) =>
    s <- rd src el;;
    if (s : bool) then
      '(pt, o) <- for_ 0 nCr (fun cr '(pt, o) =>
        x <- rd pt cr;;
        o <- wr o (sp * nCr + cr) x;;
        l <- rd srcElP cr;;
        pt <- forb x (length l) (fun p pt =>
          y <- rd l p;;
          _ <- check (el <=? y);;
          if y =? el then x <- rd pt cr;; pt <- wr pt cr (x + 1);; Ok (pt, false) else Ok (pt, true)) pt;;
        Ok (pt, o)) (pt, o);;
      Ok (sp + 1, pt, o)
    else Ok (sp, pt, o)) (0, pt, o);;
  for_ 0 nCr (fun cr o => x <- rd pt cr;; wr o (nElSrc * nCr + cr) x) o.

(** src/impl/seismic/setups/PointSources.hpp 389-510 *)
Definition initBasisEvals (basis : nat -> nat -> option (list T)) (elsP idsP : list nat) : res (list (list T)) :=
  for_ 0 (length idsP) (fun p o =>
    e <- rd elsP p;; i <- rd idsP p;;
    match basis e i with Some b => Ok (o ++ [b]) | None => Er Echeck end) [].

(** src/impl/seismic/setups/PointSources.hpp 526-768: the checks of the dimensions (lines 618-621) and the data; the number of samples is the difference of two unsigned
    numbers, descending time pointers are outside the model *)
Definition initTsData (w : raw) (elsP idsP : list nat) (bas : list (list T)) : res ps :=
  let nPts := length idsP in
  el <- for_ 0 nPts (fun p o => e <- rd elsP p;; Ok (o ++ [e])) [];;
  _ <- check (length (wEls w) =? length (wSca w));;
  _ <- check (length (wEls w) =? length (wTime w));;
  _ <- check (length (wEls w) =? length (wDt w));;
  _ <- check (length (wEls w) + 1 =? length (wPtr w));;
  '(ti, dt) <- for_ 0 nPts (fun p '(ti, dt) =>
    i <- rd idsP p;; a <- rd (wTime w) i;; b <- rd (wDt w) i;; Ok (ti ++ [a], dt ++ [b])) ([], []);;
  sc <- for_ 0 nPts (fun p o => i <- rd idsP p;; a <- rd (wSca w) i;; Ok (o ++ [a])) [];;
  ptr <- wr (memN (nPts + 1)) 0 0;;
  ptr <- for_ 0 nPts (fun p o =>
    i <- rd idsP p;;
    x <- rd o p;;
    o <- wr o (p + 1) x;;
    a <- rd (wPtr w) (i + 1);;
    b <- rd (wPtr w) i;;
    if a <? b then Er Eub else
    x <- rd o (p + 1);;
    wr o (p + 1) (x + (a - b))) ptr;;
  n <- rd ptr nPts;;
  ts <- for_ 0 nPts (fun p ts =>
    i <- rd idsP p;;
    off <- rd ptr p;;
    offRaw <- rd (wPtr w) i;;
    hi <- rd ptr (p + 1);;
    for_ 0 (hi - off) (fun sa ts => v <- rd (wTs w) (offRaw + sa);; wr ts (off + sa) v) ts) (memT n);;
  Ok (mkPs el ti dt bas sc ptr ts).

(** src/impl/seismic/setups/PointSources.hpp 791-876; [ws]: the files of the fused simulations; returns the sparse types, m_elSpPs and m_psFused *)
Definition init (nEl : nat) (ws : list raw) (basis : nat -> nat -> nat -> option (list T)) (src lim : list bool) : res (list bool * list nat * list ps) :=
  '(src, els, ids) <- for_ 0 nCr (fun cr '(src, els, ids) =>
    w <- rd ws cr;;
    '(src, (eP, iP)) <- initIds w src;;
    Ok (src, els ++ [eP], ids ++ [iP])) (src, [], []);;
  m <- elSpPs nEl src lim els;;
  fu <- for_ 0 nCr (fun cr o =>
    w <- rd ws cr;; eP <- rd els cr;; iP <- rd ids cr;;
    b <- initBasisEvals (basis cr) eP iP;;
    p <- initTsData w eP iP b;;
    Ok (o ++ [p])) [];;
  Ok (src, m, fu).

(** src/impl/seismic/setups/PointSources.hpp 904-909: samples first, .., first+size-1 of the time series, as passed to the integration *)
Definition slice (l : list T) (first size : nat) : res (list T) :=
  if first + size <=? length l then Ok (firstn size (skipn first l)) else Er Eub.

(** src/impl/seismic/setups/PointSources.hpp 887-929; [dofs] has the dimensions [nEl][nQt][nMd][nCr] *)
Definition apply (m : list nat) (fu : list ps) (first size : nat) (t1 t2 : T) (dofs : list T) : res (list T) :=
  for_ first (first + size) (fun el dofs =>
    for_ 0 nCr (fun cr dofs =>
      lo <- rd m (el * nCr + cr);;
      hi <- rd m ((el + 1) * nCr + cr);;
      for_ lo hi (fun p dofs =>
        d <- rd fu cr;;
        a <- rd (pPtr d) p;;
        b <- rd (pPtr d) (p + 1);;
        se <- slice (pTs d) a (b - a);;
        dt <- rd (pDt d) p;;
        ti <- rd (pTime d) p;;
        let int := integ dt ti se t1 t2 in
        for_ 0 nQt (fun qt dofs =>
          e <- rd (pEl d) p;;
          sc <- rd (pSca d) p;;
          s <- rd sc qt;;
          let sca := mul int s in
          for_ 0 nMd (fun md dofs =>
            bs <- rd (pBas d) p;;
            bv <- rd bs md;;
            v <- rd dofs (((e * nQt + qt) * nMd + md) * nCr + cr);;
            wr dofs (((e * nQt + qt) * nMd + md) * nCr + cr) (add v (mul sca bv))) dofs) dofs) dofs) dofs) dofs.

End Sources.
