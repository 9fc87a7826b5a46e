(** Set-up of the elastic and viscoelastic wave equations: Jacobians, star matrices and flux solvers (src/impl/seismic/common.hpp,
    src/impl/seismic/setups/{Elasticity, ViscoElasticity}.cpp, src/impl/seismic/solvers/AderDgInit.hpp, src/impl/seismic/kernels/FakeMats.hpp).

    Matrices are row-major lists; the matrices of the inverse mapping are lists of rows. The quantities are ordered as in the code:
    sigma_xx, sigma_yy, sigma_xy, u, v in two and sigma_xx, sigma_yy, sigma_zz, sigma_xy, sigma_yz, sigma_xz, u, v, w in three dimensions.
    The scalar type and its operations are arbitrary; conversions between float and double are not modelled. *)
From Coq Require Import List Arith Bool.
From Verif Require Import Util MatMul MatSparse ElGen.
Import ListNotations.
Open Scope nat_scope.

Section Elastic.
Context {T : Type}.
Variables (zero one : T) (add sub mul div : T -> T -> T) (opp sqrt pow15 : T -> T) (ltb eqb : T -> T -> bool).
Declare Scope sc_scope.
Delimit Scope sc_scope with sc.
Local Infix "+" := add : sc_scope.
Local Infix "-" := sub : sc_scope.
Local Infix "*" := mul : sc_scope.
Local Infix "/" := div : sc_scope.
Local Notation "- x" := (opp x) : sc_scope.
Local Notation two := (two one add).
(** literal 0.5 *)
Local Notation half := (one / two)%sc.

(** ** Wave speeds and Jacobians *)

(** src/impl/seismic/common.hpp 48-56; the assertion is not modelled *)
Definition getVelP (rho lam mu : T) : T := sqrt ((lam + two * mu) / rho)%sc.
(** src/impl/seismic/common.hpp 66-73; the assertion is not modelled *)
Definition getVelS (rho mu : T) : T := sqrt (mu / rho)%sc.

(** a row-major matrix with the given entries: n columns, m rows, all other entries zero *)
Definition setEntries (m n : nat) (es : list (nat * nat * T)) : list T :=
  fold_left (fun a e => upd a (fst (fst e) * n + snd (fst e)) (snd e)) es (repeat zero (m * n)).

(** src/impl/seismic/common.hpp 143-187 *)
Definition getJac2 (rho lam mu : T) : list (list T) := map (setEntries 5 5) [
  [(0, 3, - lam - two * mu)%sc; (1, 3, - lam)%sc; (2, 4, - mu)%sc; (3, 0, (- one) / rho)%sc; (4, 2, (- one) / rho)%sc];
  [(0, 4, - lam)%sc; (1, 4, - lam - two * mu)%sc; (2, 3, - mu)%sc; (3, 2, (- one) / rho)%sc; (4, 1, (- one) / rho)%sc]].

(** src/impl/seismic/common.hpp 197-277 *)
Definition getJac3 (rho lam mu : T) : list (list T) := map (setEntries 9 9) [
  [(0, 6, - lam - two * mu)%sc; (1, 6, - lam)%sc; (2, 6, - lam)%sc; (3, 7, - mu)%sc; (5, 8, - mu)%sc;
   (6, 0, (- one) / rho)%sc; (7, 3, (- one) / rho)%sc; (8, 5, (- one) / rho)%sc];
  [(0, 7, - lam)%sc; (1, 7, - lam - two * mu)%sc; (2, 7, - lam)%sc; (3, 6, - mu)%sc; (4, 8, - mu)%sc;
   (6, 3, (- one) / rho)%sc; (7, 1, (- one) / rho)%sc; (8, 4, (- one) / rho)%sc];
  [(0, 8, - lam)%sc; (1, 8, - lam)%sc; (2, 8, - lam - two * mu)%sc; (4, 7, - mu)%sc; (5, 6, - mu)%sc;
   (6, 5, (- one) / rho)%sc; (7, 4, (- one) / rho)%sc; (8, 2, (- one) / rho)%sc]].

(** src/impl/seismic/common.hpp 288-297; other dimensions are fatal *)
Definition getJac (nDim : nat) (rho lam mu : T) : res (list (list T)) :=
  if nDim =? 2 then Ok (getJac2 rho lam mu) else if nDim =? 3 then Ok (getJac3 rho lam mu) else Er Echeck.

(** ** Star matrices *)

(** a matrix of zeros with n columns and m rows, to whose entries values are added in the given order *)
Definition addEntries (m n : nat) (es : list (nat * nat * T)) : list T :=
  fold_left (fun a e => let i := fst (fst e) * n + snd (fst e) in upd a i (add (nth i a zero) (snd e))) es (repeat zero (m * n)).

(** i_jacInv[k][di] *)
Definition ji (jacInv : list (list T)) (k di : nat) : T := nth di (nth k jacInv []) zero.

(** src/impl/seismic/setups/Elasticity.cpp 86-134: two-dimensional star matrices, one per reference dimension *)
Definition starE2 (rho lam mu : T) (jacInv : list (list T)) : list (list T) := map (fun di => addEntries 5 5 [
  (0, 3, (- lam - two * mu) * ji jacInv 0 di)%sc; (1, 3, (- lam) * ji jacInv 0 di)%sc; (2, 4, (- mu) * ji jacInv 0 di)%sc;
  (3, 0, (- one) / rho * ji jacInv 0 di)%sc; (4, 2, (- one) / rho * ji jacInv 0 di)%sc;
  (0, 4, (- lam) * ji jacInv 1 di)%sc; (1, 4, (- lam - two * mu) * ji jacInv 1 di)%sc; (2, 3, (- mu) * ji jacInv 1 di)%sc;
  (3, 2, (- one) / rho * ji jacInv 1 di)%sc; (4, 1, (- one) / rho * ji jacInv 1 di)%sc]) (seq 0 2).

(** entries of a matrix with n columns *)
Definition pick (n : nat) (es : list (nat * nat)) (a : list T) : list T := map (fun e => nth (fst e * n + snd e) a zero) es.

(** src/impl/seismic/setups/Elasticity.cpp 136-165: the sparse version *)
Definition starE2sp (rho lam mu : T) (jacInv : list (list T)) : list (list T) :=
  map (pick 5 [(0, 3); (0, 4); (1, 3); (1, 4); (2, 3); (2, 4); (3, 0); (3, 2); (4, 1); (4, 2)]) (starE2 rho lam mu jacInv).

(** src/impl/seismic/setups/Elasticity.cpp 167-252: three-dimensional star matrices *)
Definition starE3 (rho lam mu : T) (jacInv : list (list T)) : list (list T) := map (fun di => addEntries 9 9 [
  (0, 6, (- lam - two * mu) * ji jacInv 0 di)%sc; (1, 6, (- lam) * ji jacInv 0 di)%sc; (2, 6, (- lam) * ji jacInv 0 di)%sc;
  (3, 7, (- mu) * ji jacInv 0 di)%sc; (5, 8, (- mu) * ji jacInv 0 di)%sc;
  (6, 0, (- one) / rho * ji jacInv 0 di)%sc; (7, 3, (- one) / rho * ji jacInv 0 di)%sc; (8, 5, (- one) / rho * ji jacInv 0 di)%sc;
  (0, 7, (- lam) * ji jacInv 1 di)%sc; (1, 7, (- lam - two * mu) * ji jacInv 1 di)%sc; (2, 7, (- lam) * ji jacInv 1 di)%sc;
  (3, 6, (- mu) * ji jacInv 1 di)%sc; (4, 8, (- mu) * ji jacInv 1 di)%sc;
  (6, 3, (- one) / rho * ji jacInv 1 di)%sc; (7, 1, (- one) / rho * ji jacInv 1 di)%sc; (8, 4, (- one) / rho * ji jacInv 1 di)%sc;
  (0, 8, (- lam) * ji jacInv 2 di)%sc; (1, 8, (- lam) * ji jacInv 2 di)%sc; (2, 8, (- lam - two * mu) * ji jacInv 2 di)%sc;
  (4, 7, (- mu) * ji jacInv 2 di)%sc; (5, 6, (- mu) * ji jacInv 2 di)%sc;
  (6, 5, (- one) / rho * ji jacInv 2 di)%sc; (7, 4, (- one) / rho * ji jacInv 2 di)%sc; (8, 2, (- one) / rho * ji jacInv 2 di)%sc]) (seq 0 3).

(** src/impl/seismic/setups/Elasticity.cpp 254-301: the sparse version *)
Definition starE3sp (rho lam mu : T) (jacInv : list (list T)) : list (list T) :=
  map (pick 9 [(0, 6); (0, 7); (0, 8); (1, 6); (1, 7); (1, 8); (2, 6); (2, 7); (2, 8); (3, 6); (3, 7); (4, 7); (4, 8); (5, 6); (5, 8);
    (6, 0); (6, 3); (6, 5); (7, 1); (7, 3); (7, 4); (8, 2); (8, 4); (8, 5)]) (starE3 rho lam mu jacInv).

(** src/impl/seismic/setups/ViscoElasticity.cpp 178-215: columns are the velocities only *)
Definition starA2 (jacInv : list (list T)) : list (list T) := map (fun di => addEntries 3 2 [
  (0, 0, (- one) * ji jacInv 0 di)%sc; (2, 1, (- half) * ji jacInv 0 di)%sc;
  (1, 1, (- one) * ji jacInv 1 di)%sc; (2, 0, (- half) * ji jacInv 1 di)%sc]) (seq 0 2).
(** src/impl/seismic/setups/ViscoElasticity.cpp 217-231 *)
Definition starA2sp (jacInv : list (list T)) : list (list T) := map (pick 2 [(0, 0); (1, 1); (2, 0); (2, 1)]) (starA2 jacInv).

(** src/impl/seismic/setups/ViscoElasticity.cpp 233-295 *)
Definition starA3 (jacInv : list (list T)) : list (list T) := map (fun di => addEntries 6 3 [
  (0, 0, (- one) * ji jacInv 0 di)%sc; (3, 1, (- half) * ji jacInv 0 di)%sc; (5, 2, (- half) * ji jacInv 0 di)%sc;
  (1, 1, (- one) * ji jacInv 1 di)%sc; (3, 0, (- half) * ji jacInv 1 di)%sc; (4, 2, (- half) * ji jacInv 1 di)%sc;
  (2, 2, (- one) * ji jacInv 2 di)%sc; (4, 1, (- half) * ji jacInv 2 di)%sc; (5, 0, (- half) * ji jacInv 2 di)%sc]) (seq 0 3).
(** src/impl/seismic/setups/ViscoElasticity.cpp 297-316 *)
Definition starA3sp (jacInv : list (list T)) : list (list T) :=
  map (pick 3 [(0, 0); (1, 1); (2, 2); (3, 0); (3, 1); (4, 1); (4, 2); (5, 0); (5, 2)]) (starA3 jacInv).

(** ** Sparsity patterns of the fused kernels *)

(** std::abs *)
Definition fabs (a : T) : T := if ltb a zero then opp a else a.
(** denseToCsr with tolerance 0: entries with absolute value above zero *)
Definition nonzero (a : T) : bool := ltb zero (fabs a).
(** an empty t_matCsr *)
Definition csr0 : comp T := {| cVal := []; cPtr := []; cIdx := [] |}.

(** src/impl/seismic/kernels/FakeMats.hpp 53-76 *)
Definition starCsrE (nDim : nat) : res (comp T) :=
  let nQts := if nDim =? 2 then 5 else 9 in
  js <- getJac nDim one one one;;
  let acc := fold_left (fun a j => map (fun p => add (fabs (fst p)) (fabs (snd p))) (combine a j)) (tl js) (hd [] js) in
  denseToCsr nonzero zero nQts nQts acc None None csr0.

(** src/impl/seismic/kernels/FakeMats.hpp 84-104 *)
Definition starCsrA (nDim : nat) : res (comp T) :=
  let nQts := if nDim =? 2 then 3 else 6 in
  let jacInv := repeat (repeat one nDim) nDim in
  let st := if nDim =? 2 then starA2 jacInv else starA3 jacInv in
  s <- denseToCsr nonzero zero nQts nDim (hd [] st) None None csr0;;
  Ok {| cVal := cVal s; cPtr := cPtr s; cIdx := map (fun c => c + nQts) (cIdx s) |}.

(** ** Flux solvers *)

(** src/impl/seismic/setups/Elasticity.cpp 30-46: solids on both sides or fluids on both sides *)
Definition setupFlMid2 (rhoL rhoR lamL lamR muL muR : T) : res (list T) :=
  if ltb zero muL && ltb zero muR then Ok (flMidElastic2 zero one add mul div opp sqrt pow15 rhoL rhoR lamL lamR muL muR)
  else if eqb muL zero && eqb muR zero then Ok (flMidAcoustic2 zero one add mul div opp sqrt rhoL rhoR lamL lamR muL muR)
  else Er Echeck.
(** src/impl/seismic/setups/Elasticity.cpp 48-64 *)
Definition setupFrMid2 (rhoL rhoR lamL lamR muL muR : T) : res (list T) :=
  if ltb zero muL && ltb zero muR then Ok (frMidElastic2 zero one add mul div opp sqrt pow15 rhoL rhoR lamL lamR muL muR)
  else if eqb muL zero && eqb muR zero then Ok (frMidAcoustic2 zero add mul div opp sqrt rhoL rhoR lamL lamR muL muR)
  else Er Echeck.
(** src/impl/seismic/setups/Elasticity.cpp 66-74 *)
Definition setupFlMid3 (rhoL rhoR lamL lamR muL muR : T) : res (list T) :=
  Ok (flMid3 zero one add sub mul div opp sqrt rhoL rhoR lamL lamR muL muR).
(** src/impl/seismic/setups/Elasticity.cpp 76-84 *)
Definition setupFrMid3 (rhoL rhoR lamL lamR muL muR : T) : res (list T) :=
  Ok (frMid3 zero one add sub mul div opp sqrt rhoL rhoR lamL lamR muL muR).

(** Elasticity.cpp 363-368, 428-433, ViscoElasticity.cpp 500-505, 560-565: the columns [cs] of a matrix with m rows and n columns are multiplied by -1 *)
Definition mirrorCols (m n : nat) (cs : list nat) (a : list T) : res (list T) :=
  for_ 0 m (fun ro a => fold_left (fun r c => a <- r;; x <- rd a (ro * n + c);; wr a (ro * n + c) (mul x (opp one))) cs (Ok a)) a.

(** Elasticity.cpp 302-370, 372-441, ViscoElasticity.cpp 446-507, 509-571: the solvers (left, right) of a face. [m]: rows of the solvers, [n]: number
    of elastic quantities, [t], [tm1]: transformations, [midL], [midR]: contributions in face-aligned coordinates, [cs]: mirrored columns *)
Definition fsOf (m n : nat) (cs : list nat) (t tm1 midL midR : list T) (freeSurface : bool) : res (list T * list T) :=
  tmpL <- matMulB0 add mul zero m n m t midL (repeat zero (m * n));;
  tmpR <- matMulB0 add mul zero m n m t midR (repeat zero (m * n));;
  fl <- matMulB0 add mul zero m n n tmpL tm1 (repeat zero (m * n));;
  tmpR <- (if freeSurface then mirrorCols m n cs tmpR else Ok tmpR);;
  fr <- matMulB0 add mul zero m n n tmpR tm1 (repeat zero (m * n));;
  Ok (fl, fr).

(** ViscoElasticity.cpp 318-374: contributions of the left and right side to the anelastic fluxes *)
Definition fsMidA2 (rhoL rhoR lamL lamR muL muR : T) : list T * list T :=
  let cpL := getVelP rhoL lamL muL in let cpR := getVelP rhoR lamR muR in let csL := getVelS rhoL muL in let csR := getVelS rhoR muR in
  (setEntries 3 5 [
     (0, 0, cpL / (lamL + two * muL + rhoR * cpL * cpR))%sc;
     (0, 3, (- (lamL + two * muL)) / (lamL + two * muL + rhoR * cpL * cpR))%sc;
     (2, 2, csL * csR / (two * muL * csR + two * muR * csL))%sc;
     (2, 4, (- muL) * csR / (two * muL * csR + two * muR * csL))%sc],
   setEntries 3 5 [
     (0, 0, (- cpL) / (lamL + two * muL + rhoR * cpL * cpR))%sc;
     (0, 3, (- cpL) * (lamR + two * muR) / (cpR * (lamL + two * muL + rhoR * cpL * cpR)))%sc;
     (2, 2, (- csL) * csR / (two * muL * csR + two * muR * csL))%sc;
     (2, 4, (- muR) * csL / (two * muL * csR + two * muR * csL))%sc]).

(** ViscoElasticity.cpp 376-444 *)
Definition fsMidA3 (rhoL rhoR lamL lamR muL muR : T) : list T * list T :=
  let cpL := getVelP rhoL lamL muL in let cpR := getVelP rhoR lamR muR in let csL := getVelS rhoL muL in let csR := getVelS rhoR muR in
  let dp := (lamL * cpR + lamR * cpL + two * muL * cpR + two * muR * cpL)%sc in
  let ds := (two * muL * csR + two * muR * csL)%sc in
  (setEntries 6 9 [
     (0, 0, cpL * cpR / dp)%sc; (0, 6, (- cpR) * (lamL + two * muL) / dp)%sc;
     (3, 3, csL * csR / ds)%sc; (3, 7, (- muL) * csR / ds)%sc;
     (5, 5, csL * csR / ds)%sc; (5, 8, (- muL) * csR / ds)%sc],
   setEntries 6 9 [
     (0, 0, (- cpL) * cpR / dp)%sc; (0, 6, (- cpL) * (lamR + two * muR) / dp)%sc;
     (3, 3, (- csL) * csR / ds)%sc; (3, 7, (- muR) * csL / ds)%sc;
     (5, 5, (- csL) * csR / ds)%sc; (5, 8, (- muR) * csL / ds)%sc]).

(** a matrix's leading m x m part (AderDgInit.hpp 215-218, 320-323: the transformation of the stresses) *)
Definition corner (n m : nat) (a : list T) : list T := flat_map (fun ro => map (fun co => nth (ro * n + co) a zero) (seq 0 m)) (seq 0 m).

(** material parameters: density, Lame parameters *)
Record mat := { mRho : T; mLam : T; mMu : T }.

(** src/impl/seismic/solvers/AderDgInit.hpp 193-262: two-dimensional elastic and anelastic solvers of a face with normal (nx, ny), as seen from
    the element with material [l]. Simplification: the anelastic solvers are always computed. *)
Definition setUpFs2 (l r : mat) (nx ny : T) (freeSurface : bool) : res ((list T * list T) * (list T * list T)) :=
  let tE := trafo2 zero one add sub mul opp nx ny in
  let tA := corner 5 3 tE in
  let tm1 := trafoInv2 zero one add sub mul opp nx ny in
  fl <- setupFlMid2 (mRho l) (mRho r) (mLam l) (mLam r) (mMu l) (mMu r);;
  fr <- setupFrMid2 (mRho l) (mRho r) (mLam l) (mLam r) (mMu l) (mMu r);;
  e <- fsOf 5 5 [0; 2] tE tm1 fl fr freeSurface;;
  let '(al, ar) := fsMidA2 (mRho l) (mRho r) (mLam l) (mLam r) (mMu l) (mMu r) in
  a <- fsOf 3 5 [0; 2] tA tm1 al ar freeSurface;;
  Ok (e, a).

(** src/impl/seismic/solvers/AderDgInit.hpp 288-370: three dimensions, with the tangents s and t *)
Definition vec : Type := T * T * T.
Definition setUpFs3 (l r : mat) (n s t : vec) (freeSurface : bool) : res ((list T * list T) * (list T * list T)) :=
  let '(nx, ny, nz) := n in let '(sx, sy, sz) := s in let '(tx, ty, tz) := t in
  let tE := trafo3 zero one add mul nx ny nz sx sy sz tx ty tz in
  let tA := corner 9 6 tE in
  let tm1 := trafoInv3 zero one add sub mul div opp nx ny nz sx sy sz tx ty tz in
  fl <- setupFlMid3 (mRho l) (mRho r) (mLam l) (mLam r) (mMu l) (mMu r);;
  fr <- setupFrMid3 (mRho l) (mRho r) (mLam l) (mLam r) (mMu l) (mMu r);;
  e <- fsOf 9 9 [0; 3; 5] tE tm1 fl fr freeSurface;;
  let '(al, ar) := fsMidA3 (mRho l) (mRho r) (mLam l) (mLam r) (mMu l) (mMu r) in
  a <- fsOf 6 9 [0; 3; 5] tA tm1 al ar freeSurface;;
  Ok (e, a).

(** src/impl/seismic/solvers/AderDgInit.hpp 515-586: the solvers of both sides of a face. The right element sees the negative normal and the same tangents. *)
Definition faceFs2 (l r : mat) (nx ny : T) := a <- setUpFs2 l r nx ny false;; b <- setUpFs2 r l (opp nx) (opp ny) false;; Ok (a, b).
Definition vopp (v : vec) : vec := (opp (fst (fst v)), opp (snd (fst v)), opp (snd v)).
Definition faceFs3 (l r : mat) (n s t : vec) := a <- setUpFs3 l r n s t false;; b <- setUpFs3 r l (vopp n) s t false;; Ok (a, b).

End Elastic.
