(** Sub-cell limiter: detection (src/sc/Detections.hpp), kernels (src/sc/Kernels.hpp), steering (src/sc/Steering.hpp) and sub-grids (src/sc/SubGrid.hpp).

    Simplifications of this file:
    - the type of the values, its operations and its comparison are arbitrary, so that the results hold bit by bit for finite floating point numbers;
    - an array [2][..][..] of extrema is a pair of flat arrays (minima, maxima); all other multi-dimensional arrays are flat lists;
    - the multiplication with the scatter matrix (see MatMul.v for the kernels) is an oracle [scat], which returns the sub-cell solution. *)
From Verif Require Import Util.

Section SubCell.
Variable T : Type.
Variable ltb : T -> T -> bool.
Variables (add sub mul : T -> T -> T).
(** TL_N_QTS, TL_N_CRS *)
Variables (nQt nCr : nat).

(** std::min, std::max *)
Definition smin (a b : T) : T := if ltb b a then b else a.
Definition smax (a b : T) : T := if ltb a b then b else a.

(** ** Detections.hpp *)
(** m_eps, m_eps0 (lines 49, 52), converted to TL_T_REAL *)
Variables (eps eps0 : T).

(** src/sc/Detections.hpp 94-95, 161-162 (loop body with the loops around it): reduction with the extrema of one adjacent element *)
Definition dmpReduce (ad : list T * list T) (red : list T * list T) : res (list T * list T) :=
  for_ 0 nQt (fun qt red => for_ 0 nCr (fun cr '(mn, mx) =>
    a <- rd mn (qt * nCr + cr);; b <- rd (fst ad) (qt * nCr + cr);; mn <- wr mn (qt * nCr + cr) (smin a b);;
    c <- rd mx (qt * nCr + cr);; e <- rd (snd ad) (qt * nCr + cr);; mx <- wr mx (qt * nCr + cr) (smax c e);;
    Ok (mn, mx)) red) red.

(** src/sc/Detections.hpp 101-119 and 167-185: parameter delta and check. l_delta and o_adm are arrays of the function and of the caller, with arbitrary contents on entry *)
Definition dmpCheck (red can : list T * list T) (delta : list T) (adm : list bool) : res (list bool) :=
  delta <- for_ 0 nQt (fun qt de => for_ 0 nCr (fun cr de =>
    b <- rd (snd red) (qt * nCr + cr);; a <- rd (fst red) (qt * nCr + cr);;
    de <- wr de (qt * nCr + cr) (mul eps (sub b a));;
    x <- rd de (qt * nCr + cr);;
    wr de (qt * nCr + cr) (smax eps0 x)) de) delta;;
  for_ 0 nQt (fun qt adm => for_ 0 nCr (fun cr adm =>
    a <- rd (fst red) (qt * nCr + cr);; de <- rd delta (qt * nCr + cr);; x <- rd (fst can) (qt * nCr + cr);;
    y <- rd (snd can) (qt * nCr + cr);; b <- rd (snd red) (qt * nCr + cr);;
    if ltb x (sub a de) || ltb (add b de) y then wr adm cr false else Ok adm) adm) adm.

(** src/sc/Detections.hpp 73-122; l_extCurRed is initialised completely in lines 84-90, so it is a copy *)
Definition dmpVe (cur : list T * list T) (curAd : list (list T * list T)) (can : list T * list T) (elVeEl : list nat) (delta : list T) (adm : list bool) : res (list bool) :=
  adm <- for_ 0 nCr (fun cr adm => wr adm cr true) adm;;
  red <- for_ 0 (length elVeEl) (fun ne red =>
    id <- rd elVeEl ne;;
    ad <- rd curAd id;;
    dmpReduce ad red) cur;;
  dmpCheck red can delta adm.

(** src/sc/Detections.hpp 137-186; the ids of undefined adjacent elements are [None] *)
Definition dmpFa (cur : list T * list T) (curAd : list (list T * list T)) (can : list T * list T) (elFaEl : list (option nat)) (delta : list T) (adm : list bool) : res (list bool) :=
  adm <- for_ 0 nCr (fun cr adm => wr adm cr true) adm;;
  red <- for_ 0 (length elFaEl) (fun fa red =>
    o <- rd elFaEl fa;;
    match o with Some id => ad <- rd curAd id;; dmpReduce ad red | None => Ok red end) cur;;
  dmpCheck red can delta adm.

(** ** Kernels.hpp *)
(** TL_N_SCS, TL_N_SFS, TL_N_FAS *)
Variables (nSc nSf nFa : nat).
(** std::numeric_limits< TL_T_REAL >::max(), lowest() *)
Variables (vMax vLow : T).

(** src/sc/Kernels.hpp 311-335 *)
Definition scExtrema (dofs mn mx : list T) : res (list T * list T) :=
  r <- for_ 0 nQt (fun qt r => for_ 0 nCr (fun cr '(mn, mx) =>
    mn <- wr mn (qt * nCr + cr) vMax;; mx <- wr mx (qt * nCr + cr) vLow;; Ok (mn, mx)) r) (mn, mx);;
  for_ 0 nSc (fun sc r => for_ 0 nQt (fun qt r => for_ 0 nCr (fun cr '(mn, mx) =>
    a <- rd mn (qt * nCr + cr);; v <- rd dofs ((qt * nSc + sc) * nCr + cr);; mn <- wr mn (qt * nCr + cr) (smin a v);;
    b <- rd mx (qt * nCr + cr);; mx <- wr mx (qt * nCr + cr) (smax b v);; Ok (mn, mx)) r) r) r.

(** src/sc/Kernels.hpp 138-159 (n = TL_N_SCS) and 177-202 (n = TL_N_SFS); the arguments i_admP is [None] for a nullptr, [scat] is the result of scatter and scatterFa *)
Definition scatterReplace (n : nat) (scat dofsSc : list T) (admP : option (list bool)) : res (list T) :=
  match admP with
  | None => Ok scat
  | Some admP =>
    for_ 0 nQt (fun qt o => for_ 0 n (fun sc o => for_ 0 nCr (fun cr o =>
      a <- rd admP cr;;
      v <- (if a : bool then rd o ((qt * n + sc) * nCr + cr) else rd dofsSc ((qt * n + sc) * nCr + cr));;
      wr o ((qt * n + sc) * nCr + cr) v) o) o) scat
  end.

(** src/sc/Kernels.hpp 241-273; o_scSurfDofs: [None] for a nullptr; the pointers of different faces point to different memory *)
Definition gatherSurfDofs (dofs : list T) (faSfSc scDgAd : list (list nat)) (vId : list nat) (surf : list (option (list T))) (adm : list bool) : res (list (option (list T))) :=
  for_ 0 nFa (fun fa surf =>
    o <- rd surf fa;;
    match o with
    | None => Ok surf
    | Some o =>
      v <- rd vId fa;;
      o <- for_ 0 nQt (fun qt o => for_ 0 nSf (fun sf o =>
        row <- rd scDgAd v;; sfRe <- rd row sf;;
        row <- rd faSfSc fa;; sc <- rd row sfRe;;
        for_ 0 nCr (fun cr o =>
          a <- rd adm cr;;
          x <- (if a : bool then rd o ((qt * nSf + sf) * nCr + cr) else rd dofs ((qt * nSc + sc) * nCr + cr));;
          wr o ((qt * nSf + sf) * nCr + cr) x) o) o) o;;
      wr surf fa (Some o)
    end) surf.

(** ** SubGrid.hpp *)
(** TL_N_FA_VES, TL_N_FA_SVS, whether the element is a hexahedron *)
Variables (nFaVe nFaSv : nat) (isHex : bool).

(** src/sc/SubGrid.hpp 127-149: search of a sub-vertex in the table of the face; an entry [None] is the invalid value. The result is the position *)
Definition faSgSearch (x : nat) (svR : list (option nat)) (old : option nat) : res (list (option nat) * option nat) :=
  forb 0 nFaSv (fun cu '(svR, pos) =>
    y <- rd svR cu;;
    match y with
    | Some y => if y =? x then Ok ((svR, Some cu), true) else Ok ((svR, pos), false)
    | None => svR <- wr svR cu (Some x);; Ok ((svR, Some cu), true)
    end) (svR, old).

(** src/sc/SubGrid.hpp 121-157, one face; scRecv are the sub-vertices of the receive sub-cells TL_N_SCS + l_fa * TL_N_SFS + l_sf; o_faSfSvL[l_fa] has the entries [None] as long as nothing was assigned *)
Definition faSg (scRecv : list (list nat)) (svR : list (option nat)) (sfSvL : list (list (option nat))) : res (list (option nat) * list (list (option nat))) :=
  svR <- for_ 0 nFaSv (fun sv svR => wr svR sv None) svR;;
  for_ 0 nSf (fun sf '(svR, sfSvL) =>
    '(svR, sfSvL) <- for_ 0 nFaVe (fun sv '(svR, sfSvL) =>
      row <- rd scRecv sf;; x <- rd row sv;;
      out <- rd sfSvL sf;; old <- rd out sv;;
      '(svR, pos) <- faSgSearch x svR old;;
      out <- wr out sv pos;;
      sfSvL <- wr sfSvL sf out;;
      Ok (svR, sfSvL)) (svR, sfSvL);;
    if isHex then
      out <- rd sfSvL sf;; a <- rd out 0;; b <- rd out 1;;
      out <- wr out 0 b;; out <- wr out 1 a;;
      sfSvL <- wr sfSvL sf out;;
      Ok (svR, sfSvL)
    else Ok (svR, sfSvL)) (svR, sfSvL).
End SubCell.

(** ** Steering.hpp *)
(** src/sc/Steering.hpp 49-63 *)
Definition getAdmIds (nTs : nat) : list nat := if nTs mod 2 =? 0 then [0; 1; 2; 3] else [2; 3; 0; 1].
(** src/sc/Steering.hpp 76-80, 93-97 (the same function for the extrema and the dofs) *)
Definition getExtIds (nTs : nat) : list nat := [nTs mod 2; (nTs + 1) mod 2].

(** src/sc/Steering.hpp 114-128 (n = 4), 151-164 and 182-195 (n = 2): reordering of n pointers *)
Definition resetPtrs {P} (n : nat) (ids : list nat) (io : list P) : res (list P) :=
  st <- for_ 0 n (fun k st => p <- rd io k;; Ok (st ++ [p])) [];;
  for_ 0 n (fun k io => id <- rd ids k;; p <- rd st id;; wr io k p) io.
Definition resetAdm {P} (nTs : nat) (io : list P) : res (list P) := resetPtrs 4 (getAdmIds nTs) io.
Definition resetExt {P} (nTs : nat) (io : list P) : res (list P) := resetPtrs 2 (getExtIds nTs) io.

(** src/sc/Steering.hpp 206-221; invalid ids of limited elements are [None] *)
Definition resetLimSync (nCr first size : nat) (lpLi : list (option nat)) (lim : list nat) : res (list nat) :=
  for_ first (first + size) (fun lp lim =>
    o <- rd lpLi lp;;
    match o with Some li => for_ 0 nCr (fun cr lim => wr lim (li * nCr + cr) 0) lim | None => Ok lim end) lim.
