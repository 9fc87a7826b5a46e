(** Internal boundaries and dynamic rupture: src/impl/seismic/solvers/InternalBoundary.hpp, src/impl/seismic/solvers/FrictionLaws.hpp,
    src/impl/seismic/setups/RuptureInit.hpp, src/linalg/Geom.hpp. Generic in the scalar type. Simplification: one sub-face and one of the fused
    simulations; the loops over both are independent of each other. *)
From Coq Require Import List Arith Bool.
From Verif Require Import Util ElGen Elastic.
Import ListNotations.

Open Scope nat_scope.

Section Fault.
Context {T : Type}.
Variables (zero one : T) (add sub mul div : T -> T -> T) (opp sqrt : T -> T) (ltb : T -> T -> bool).
(* TOL.MESH, TOL.SOLVER, std::numeric_limits< TL_T_REAL >::max() *)
Variables (tolMesh tolSolver maxT : T).

Declare Scope fa_scope.
Delimit Scope fa_scope with fa.
Local Notation "a + b" := (add a b) : fa_scope.
Local Notation "a - b" := (sub a b) : fa_scope.
Local Notation "a * b" := (mul a b) : fa_scope.
Local Notation "a / b" := (div a b) : fa_scope.
Local Notation "- a" := (opp a) : fa_scope.
Local Notation vec := (@Elastic.vec T).
Local Notation mat := (@Elastic.mat T).
Local Notation absT := (fabs zero opp ltb).

(** ** Matrices *)

(** the matrix kernels (one column): product of a row-major matrix with m rows and n columns with a vector *)
Definition mulV (m n : nat) (a q : list T) : list T := map (fun i => fold_left (fun s j => add s (mul (nth (i * n + j) a zero) (nth j q zero))) (seq 0 n) zero) (seq 0 m).
(** the loops *= over all entries of a matrix *)
Definition scaleM (c : T) (a : list T) : list T := map (fun x => mul x c) a.
(** entry of a vector *)
Definition at_ (v : list T) (i : nat) : T := nth i v zero.

(** ** Vectors: src/linalg/Geom.hpp *)

(** sprod2, sprod3 *)
Definition sprod2 (a b : T * T) : T := (fst a * fst b + snd a * snd b)%fa.
Definition sprod3 (a b : T * T * T) : T := (fst (fst a) * fst (fst b) + snd (fst a) * snd (fst b) + snd a * snd b)%fa.
(** norm3 *)
Definition norm3 (a : T * T * T) : T := sqrt (sprod3 a a).
(** normalize3 *)
Definition normalize3 (a : T * T * T) : T * T * T := let n := norm3 a in (fst (fst a) / n, snd (fst a) / n, snd a / n)%fa.
(** cross3 *)
Definition cross3 (a b : T * T * T) : T * T * T :=
  let '(ax, ay, az) := a in let '(bx, by_, bz) := b in (ay * bz - az * by_, az * bx - ax * bz, ax * by_ - ay * bx)%fa.

(** src/linalg/Geom.hpp 939-987: matrix which rotates v0 onto v1 *)
Definition rotMat (v0 v1 : T * T * T) : res (list T) :=
  let v0 := normalize3 v0 in let v1 := normalize3 v1 in
  let '(cx, cy, cz) := cross3 v0 v1 in
  let sm := [zero; - cz; cy; cz; zero; - cx; - cy; cx; zero]%fa in
  let sc := sprod3 v0 v1 in
  _ <- check (ltb tolMesh (absT (sc + one)%fa));;
  let sc := (one / (one + sc))%fa in
  let sq := flat_map (fun i => map (fun j => fold_left (fun a k => add a (mul (nth (i * 3 + k) sm zero) (nth (k * 3 + j) sm zero))) (seq 0 3) zero) (seq 0 3)) (seq 0 3) in
  let rm := map (fun i => (nth i sq zero * sc + nth i sm zero)%fa) (seq 0 9) in
  Ok (map (fun i => if (i =? 0) || (i =? 4) || (i =? 8) then (nth i rm zero + one)%fa else nth i rm zero) (seq 0 9)).

Definition v3 (l : list T) : T * T * T := (at_ l 0, at_ l 1, at_ l 2).
Definition l3 (v : T * T * T) : list T := [fst (fst v); snd (fst v); snd v].

(** ** Set-up of the solvers: InternalBoundary.hpp *)

(** o_solversSp of a face: [0] transformation to face-aligned coordinates, [1] middle state, [2], [3] fluxes of the left and right element *)
Record ibSolv := { ibTm1 : list T; ibJump : list T; ibFluxL : list T; ibFluxR : list T }.

(** InternalBoundary.hpp 523-531, 781-789: does the normal of the face point in the preferred direction? *)
Definition prefDir (sProd : option T) : res bool :=
  match sProd with None => Ok true | Some p => _ <- check (ltb tolMesh (absT p));; Ok (ltb zero p) end.
(** 588-602, 902-916: scaling of the flux solvers *)
Definition ibScale (pref : bool) (area vol nSfs nScs : T) : T :=
  let s := (area / nSfs / (vol / nScs))%fa in if pref then s else (s * - one)%fa.

(** InternalBoundary.hpp 523-603: two dimensions. [bnd]: first vector of the boundary's coordinate system, [l], [r]: materials of the left and right
    element, [n]: outer normal of the face *)
Definition ibFace2 (bnd : option (T * T)) (l r : mat) (n : T * T) (area volL volR nSfs nScs : T) : res ibSolv :=
  pref <- prefDir (option_map (fun b => sprod2 b n) bnd);;
  let '(dx, dy) := if pref then n else (fst n * - one, snd n * - one)%fa in
  let jump := if pref then msJumpL2 zero one add mul div sqrt (mRho l) (mRho r) (mLam l) (mLam r) (mMu l) (mMu r)
              else scaleM (- one)%fa (msJumpR2 zero one add mul div opp sqrt (mRho r) (mRho l) (mLam r) (mLam l) (mMu r) (mMu l)) in
  Ok {| ibTm1 := trafoInv2 zero one add sub mul opp dx dy; ibJump := jump;
        ibFluxL := scaleM (ibScale pref area volL nSfs nScs) (msFlux2 zero one add sub mul div opp dx dy (mRho l) (mLam l) (mMu l));
        ibFluxR := scaleM (ibScale pref area volR nSfs nScs) (msFlux2 zero one add sub mul div opp dx dy (mRho r) (mLam r) (mMu r)) |}.

(** InternalBoundary.hpp 783-824: coordinate system of a face in three dimensions; returns the preferred direction and the coordinate system *)
Definition ibCrds3 (bnd : option (vec * vec * vec)) (n s t : vec) : res (bool * (vec * vec * vec)) :=
  match bnd with None => Ok (true, (n, s, t)) | Some (b0, b1, b2) =>
    pref <- prefDir (Some (sprod3 b0 n));;
    let n := if pref then n else let '(x, y, z) := n in (x * - one, y * - one, z * - one)%fa in
    rm <- rotMat b0 n;;
    let s := v3 (mulV 3 3 rm (l3 b1)) in let t := v3 (mulV 3 3 rm (l3 b2)) in
    _ <- check (ltb (absT (sprod3 n s)) tolMesh);; _ <- check (ltb (absT (sprod3 n t)) tolMesh);; _ <- check (ltb (absT (sprod3 s t)) tolMesh);;
    _ <- check (ltb (absT (norm3 n - one)%fa) tolMesh);; _ <- check (ltb (absT (norm3 s - one)%fa) tolMesh);; _ <- check (ltb (absT (norm3 t - one)%fa) tolMesh);;
    Ok (pref, (n, s, t)) end.

(** InternalBoundary.hpp 754-763: the boundary's coordinate system is checked before the loop over the faces *)
Definition ibCheck3 (bnd : option (vec * vec * vec)) : res unit :=
  match bnd with None => Ok tt | Some (b0, b1, b2) =>
    _ <- check (ltb (absT (norm3 b0 - one)%fa) tolMesh);; _ <- check (ltb (absT (norm3 b1 - one)%fa) tolMesh);; check (ltb (absT (norm3 b2 - one)%fa) tolMesh) end.

(** InternalBoundary.hpp 770-917: three dimensions *)
Definition ibFace3 (bnd : option (vec * vec * vec)) (l r : mat) (n s t : vec) (area volL volR nSfs nScs : T) : res ibSolv :=
  pc <- ibCrds3 bnd n s t;;
  let '(pref, ((nx, ny, nz), (sx, sy, sz), (tx, ty, tz))) := pc in
  let jump := if pref then msJumpL3 zero one add sub mul div opp sqrt (mRho l) (mRho r) (mLam l) (mLam r) (mMu l) (mMu r)
              else scaleM (- one)%fa (msJumpR3 zero one add mul div opp sqrt (mRho r) (mRho l) (mLam r) (mLam l) (mMu r) (mMu l)) in
  Ok {| ibTm1 := trafoInv3 zero one add sub mul div opp nx ny nz sx sy sz tx ty tz; ibJump := jump;
        ibFluxL := scaleM (ibScale pref area volL nSfs nScs) (msFlux3 zero one add sub mul div opp nx ny nz sx sy sz tx ty tz (mRho l) (mLam l) (mMu l));
        ibFluxR := scaleM (ibScale pref area volR nSfs nScs) (msFlux3 zero one add sub mul div opp nx ny nz sx sy sz tx ty tz (mRho r) (mLam r) (mMu r)) |}.

(** A face as seen by the set-ups: bits of the sparse type, adjacent elements, outer normal, tangents, area. Vectors of two-dimensional meshes have a
    third component, which is not used *)
Record ibFa := { faSp : nat; faEl : nat * nat; faN : vec; faS : vec; faT : vec; faArea : T }.
(** RuptureInit.hpp 188, InternalBoundary.hpp 513, 768 *)
Definition hasSp (spType : nat) (f : ibFa) : bool := Nat.land (faSp f) spType =? spType.

(** the loops over the dense faces with counter l_spId of the faces that have the sparse type (InternalBoundary.hpp 507-605, 752-919,
    RuptureInit.hpp 184-297) *)
Definition spLoop {A : Type} (spType : nat) (body : nat -> ibFa -> res A) (fas : list ibFa) (o : list A) : res (list A) :=
  so <- for_ 0 (length fas) (fun fa (st : nat * list A) =>
    f <- match nth_error fas fa with Some f => Ok f | None => Er Eub end;;
    if hasSp spType f then a <- body (fst st) f;; o <- wr (snd st) (fst st) a;; Ok (S (fst st), o) else Ok st) (0, o);;
  Ok (snd so).

(** InternalBoundary.hpp 533-543, 826-834; [maxEl]: id of missing elements *)
Definition ibEls (maxEl : nat) (f : ibFa) : res (nat * nat) :=
  let '(l, r) := faEl f in
  _ <- check (negb (l =? r));;
  let l := if l =? maxEl then r else l in
  let r := if r =? maxEl then l else r in Ok (l, r).

(** InternalBoundary.hpp 498-606 and 743-920; [bg]: material and volume of the elements *)
Definition ibInit2 (maxEl spType : nat) (bnd : option (T * T)) (nSfs nScs : T) (bg : list (mat * T)) (fas : list ibFa) (o : list ibSolv) : res (list ibSolv) :=
  spLoop spType (fun _ f =>
    e <- ibEls maxEl f;;
    l <- rd bg (fst e);; r <- rd bg (snd e);;
    ibFace2 bnd (fst l) (fst r) (fst (faN f)) (faArea f) (snd l) (snd r) nSfs nScs) fas o.
Definition ibInit3 (maxEl spType : nat) (bnd : option (vec * vec * vec)) (nSfs nScs : T) (bg : list (mat * T)) (fas : list ibFa) (o : list ibSolv) : res (list ibSolv) :=
  _ <- ibCheck3 bnd;;
  spLoop spType (fun _ f =>
    e <- ibEls maxEl f;;
    l <- rd bg (fst e);; r <- rd bg (snd e);;
    ibFace3 bnd (fst l) (fst r) (faN f) (faS f) (faT f) (faArea f) (snd l) (snd r) nSfs nScs) fas o.

(** ** Net updates of a sub-face *)

(** InternalBoundary.hpp 188-280. [perturb]: middle state to middle states of the left and right side and further results *)
Definition netUpdates {A : Type} (nQt : nat) (so : ibSolv) (perturb : list T -> (list T * list T) * A) (dt : T) (qL qR : list T) : (list T * list T) * A :=
  let dL := mulV nQt nQt (ibTm1 so) qL in let dR := mulV nQt nQt (ibTm1 so) qR in
  let jump := map (fun i => (at_ dR i - at_ dL i)%fa) (seq 0 nQt) in
  let dj := mulV nQt nQt (ibJump so) jump in
  let ms := map (fun i => (at_ dL i + at_ dj i)%fa) (seq 0 nQt) in
  let '((msL, msR), x) := perturb ms in
  ((mulV nQt nQt (ibFluxL so) (map (fun y => (- y) * dt)%fa msL), mulV nQt nQt (ibFluxR so) (map (fun y => y * dt)%fa msR)), x).

(** InternalBoundary.hpp 103-118 *)
Definition dummySolv (ms : list T) : (list T * list T) * bool := ((ms, ms), false).

(** ** Friction *)

(** t_LinSlipWeakGlobal *)
Record lswGl := { gMus : T; gMud : T; gDcInv : T }.
(** t_LinSlipWeakFace *)
Record lswFa := { fLEqM : bool; fCsM : T; fCsP : T }.
(** t_LinSlipWeakSubFace *)
Record lswSf := { sSn0 : T; sCo0 : T; sSs0 : list T; sMuf : T; sSt : T; sTr : list T; sSr : list T; sDd : list T }.

(** FrictionLaws.hpp 129-133, 343-347 *)
Definition strengthOf (muf sn0 co0 ms0 : T) : T := let st := (muf * (sn0 + ms0) + co0)%fa in if ltb st zero then (- st)%fa else zero.
(** std::max *)
Definition maxOf (a b : T) : T := if ltb a b then b else a.
(** FrictionLaws.hpp 167-170, 399-402 *)
Definition mufOf (g : lswGl) (dd : T) : T := maxOf (gMud g) (((- (gMus g - gMud g)) * gDcInv g) * dd + gMus g)%fa.

(** FrictionLaws.hpp 100-175; returns the states of the minus and plus side, the failure flag and the updated data *)
Definition linSlipWeak2 (dt : T) (f : lswFa) (g : lswGl) (ms : list T) (s : lswSf) : ((list T * list T) * bool) * lswSf :=
  let st := strengthOf (sMuf s) (sSn0 s) (sCo0 s) (at_ ms 0) in
  let ss0 := at_ (sSs0 s) 0 in
  let per := ltb st (absT (ss0 + at_ ms 2)%fa) in
  let tr := (st - absT ss0)%fa in
  let tr := if ltb zero ss0 then tr else (- tr)%fa in
  let tr := if per then tr else at_ ms 2 in
  let msM := upd (upd ms 2 tr) 4 (at_ ms 4 - fCsM f * (tr - at_ ms 2))%fa in
  let msP := upd (upd ms 2 tr) 4 (at_ ms 4 + fCsP f * (tr - at_ ms 2))%fa in
  let sr := (at_ msP 4 - at_ msM 4)%fa in
  let dd := (at_ (sDd s) 0 + absT sr * dt)%fa in
  (((msM, msP), per), {| sSn0 := sSn0 s; sCo0 := sCo0 s; sSs0 := sSs0 s; sMuf := mufOf g dd; sSt := st; sTr := [(tr + ss0)%fa]; sSr := [sr]; sDd := [dd] |}).

(** FrictionLaws.hpp 310-408 *)
Definition linSlipWeak3 (dt : T) (f : lswFa) (g : lswGl) (ms : list T) (s : lswSf) : ((list T * list T) * bool) * lswSf :=
  let st := strengthOf (sMuf s) (sSn0 s) (sCo0 s) (at_ ms 0) in
  let s0 := at_ (sSs0 s) 0 in let s1 := at_ (sSs0 s) 1 in
  let sh1 := (s0 + at_ ms 3)%fa in let sh2 := (s1 + at_ ms 5)%fa in
  let shear := sqrt (sh1 * sh1 + sh2 * sh2)%fa in
  let per := ltb st shear in
  let sc := (st / shear)%fa in
  let tr0 := if per then ((s0 + at_ ms 3) * sc - s0)%fa else at_ ms 3 in
  let tr1 := if per then ((s1 + at_ ms 5) * sc - s1)%fa else at_ ms 5 in
  let d1 := (tr0 - at_ ms 3)%fa in let d2 := (tr1 - at_ ms 5)%fa in
  let sh := upd (upd ms 3 tr0) 5 tr1 in
  let msM := upd (upd sh 7 (at_ ms 7 - fCsM f * d1)%fa) 8 (at_ ms 8 - fCsM f * d2)%fa in
  let msP := upd (upd sh 7 (at_ ms 7 + fCsP f * d1)%fa) 8 (at_ ms 8 + fCsP f * d2)%fa in
  let sr0 := (at_ msP 7 - at_ msM 7)%fa in let sr1 := (at_ msP 8 - at_ msM 8)%fa in
  let dd0 := (at_ (sDd s) 0 + absT sr0 * dt)%fa in let dd1 := (at_ (sDd s) 1 + absT sr1 * dt)%fa in
  let ddA := sqrt (dd0 * dd0 + dd1 * dd1)%fa in
  (((msM, msP), per), {| sSn0 := sSn0 s; sCo0 := sCo0 s; sSs0 := sSs0 s; sMuf := mufOf g ddA; sSt := st; sTr := [(tr0 + s0)%fa; (tr1 + s1)%fa]; sSr := [sr0; sr1]; sDd := [dd0; dd1] |}).

(** FrictionLaws.hpp 193-222, 426-456: minus and plus side to left and right side *)
Definition perturb (dim3 : bool) (dt : T) (f : lswFa) (g : lswGl) (s : lswSf) (ms : list T) : (list T * list T) * (bool * lswSf) :=
  let '(((msM, msP), per), s') := (if dim3 then linSlipWeak3 else linSlipWeak2) dt f g ms s in
  (if fLEqM f then (msM, msP) else (msP, msM), (per, s')).

(** ** Set-up of the friction law: RuptureInit.hpp *)

(** 174-181; [dc]: critical slip distance *)
Definition lswGlInit (mus mud dc : T) : res lswGl :=
  _ <- check (ltb tolSolver mus);; _ <- check (ltb tolSolver mud);; _ <- check (ltb tolSolver dc);;
  Ok {| gMus := mus; gMud := mud; gDcInv := (one / dc)%fa |}.
(** 195-206; [sProd]: scalar product of the fault's first coordinate and the face's outer normal *)
Definition lswFaInit (sProd : T) (l r : mat) : res lswFa :=
  _ <- check (ltb tolMesh (absT sProd));;
  let m := ltb sProd zero in
  let cl := sqrt (one / (mMu l * mRho l))%fa in let cr := sqrt (one / (mMu r * mRho r))%fa in
  Ok {| fLEqM := m; fCsM := if m then cl else cr; fCsP := if m then cr else cl |}.
(** 250-293; [data]: fault data of the sub-face: sn0, co0, ss0; [dom]: initial stresses of the first domain that contains the face. nSh: number of shear
    components *)
Definition lswSfInit (nSh : nat) (mus : T) (data : option (T * T * list T)) (dom : option (list T)) : lswSf :=
  let '(sn0, co0, ss0) := match data with Some d => d | None => (maxT, zero, repeat maxT nSh) end in
  let '(sn0, ss0, muf) := match dom with Some st => (at_ st 0, map (fun i => at_ st (1 + i)) (seq 0 nSh), mus) | None => (sn0, ss0, maxT) end in
  {| sSn0 := sn0; sCo0 := co0; sSs0 := ss0; sMuf := muf; sSt := zero; sTr := repeat zero nSh; sSr := repeat zero nSh; sDd := repeat zero nSh |}.

End Fault.
