(** Initialization of the flux solvers of all elements: model of edge::seismic::solvers::AderDgInit::initFs
    (src/impl/seismic/solvers/AderDgInit.hpp).

    The four output arrays o_fsE[2], o_fsA[2] are one array [el][fa] with the own and neighbouring elastic solvers and the own and
    neighbouring anelastic solvers.  A solver, all of whose entries are numeric_limits::max(), is [None].
    Simplifications: the anelastic solvers are always computed; the loop over the faces is sequential; the determinants of the elements'
    Jacobians are given ([jDet], see Mapping for evalJac); a missing id (numeric_limits::max()) is [None]. *)
From Verif Require Import Util MeshConn Sparse ElGen Elastic.

Section Init.
Context {T : Type}.
Variables (zero one : T) (add sub mul div : T -> T -> T) (opp sqrt pow15 : T -> T) (ltb eqb : T -> T -> bool).
Local Notation mat := (@mat T).
Local Notation vec := (@vec T).

(** elastic (own, neighbouring) and anelastic (own, neighbouring) solvers *)
Definition solvers : Type := (list T * list T) * (list T * list T).
(** face characteristics: outNormal, tangent0, tangent1, area, sparse type; in two dimensions the third coordinates are not used *)
Record fchar := { fcN : vec; fcS : vec; fcT : vec; fcArea : T; fcSp : N }.
(** masks of the sparse types *)
Record bmasks := { bFree : N; bOut : N; bPer : N }.
(** the mesh and the materials: i_nElsIn, i_recvEl and i_recvFa, i_faEl, i_elFa, i_faChars, i_bgPars, i_bgParsRe, determinants *)
Record fsIn := { iIn : nat; iRecv : list (nat * nat); iFaEl : list (option nat * option nat); iElFa : list (list nat); iCh : list fchar;
  iBg : list mat; iBgRe : list mat; iJDet : list T }.

(** AderDgInit.hpp 193-370 (setUpFs of two and three dimensions, see Elastic) *)
Definition setUpFs (el : elType) (l r : mat) (n s t : vec) (free : bool) : res solvers :=
  if nDis el =? 2 then setUpFs2 zero one add sub mul div opp sqrt pow15 ltb eqb l r (fst (fst n)) (snd (fst n)) free
  else setUpFs3 zero one add sub mul div opp sqrt l r n s t free.

Section Loop.
Variables (el : elType) (fs : mat -> mat -> vec -> vec -> vec -> bool -> res solvers) (B : bmasks) (I : fsIn).

Definition isSome {X} (o : option X) : bool := match o with Some _ => true | None => false end.
(** AderDgInit.hpp 450-464: position of face [fa] in an element's faces, which has to be found once at most *)
Definition findFa (fa : nat) (e : option nat) : res (option nat) :=
  match e with
  | None => Ok None
  | Some e => fas <- rd (iElFa I) e;; for_ 0 (nElFas el) (fun fi o => x <- rd fas fi;; if x =? fa then _ <- check (negb (isSome o));; Ok (Some fi) else Ok o) None
  end.
(** AderDgInit.hpp 495-504: material of the element of another partition behind face [fi] of element [e] *)
Fixpoint findRecv (e : nat) (fi : option nat) (l : list (nat * nat)) (co : nat) : res mat :=
  match l with
  | [] => Er Echeck
  | (re, rf) :: l => if (re =? e) && (match fi with Some fi => rf =? fi | None => false end) then rd (iBgRe I) co else findRecv e fi l (S co)
  end.
(** solvers times a scalar *)
Definition scaleFs (c : T) (s : solvers) : solvers :=
  let m := map (fun x => mul x c) in ((m (fst (fst s)), m (snd (fst s))), (m (fst (snd s)), m (snd (snd s)))).
(** AderDgInit.hpp 621-630 *)
Definition scaling (area det : T) : T := let s := div (opp area) det in match el with TET4 => mul s (add one one) | _ => s end.

Definition arr := list (list (option solvers)).
Definition put (o : arr) (e fi : nat) (x : option solvers) : res arr := row <- rd o e;; row <- wr row fi x;; wr o e row.
(** AderDgInit.hpp 632-663: scales the solvers, which have to be set *)
Definition rescale (o : arr) (e fi : nat) (c : T) : res arr :=
  row <- rd o e;; x <- rd row fi;; match x with None => Er Echeck | Some x => put o e fi (Some (scaleFs c x)) end.

(** AderDgInit.hpp 441-664: one face *)
Definition initFace (fa : nat) (o : arr) : res arr :=
  p <- rd (iFaEl I) fa;; ch <- rd (iCh I) fa;;
  let eL := fst p in let eR := snd p in
  fL <- findFa fa eL;; fR <- findFa fa eR;;
  let per := has (fcSp ch) (bPer B) in
  _ <- check (negb (isSome eL) || isSome fL || per);; _ <- check (negb (isSome eR) || isSome fR || per);;
  match eL with
  | None => Er Echeck
  | Some l =>
    mL <- rd (iBg I) l;;
    mR <- match eR with
          | Some r => rd (iBg I) r
          | None => if has (fcSp ch) (bOut B) || has (fcSp ch) (bFree B) then Ok mL
                    else if iIn I <=? l then findRecv l fL (iRecv I) 0 else Er Echeck
          end;;
    let exL := isSome fL in
    let exR := exL && isSome fR in
    let r := match eR with Some r => r | None => 0 end in
    let iL := match fL with Some i => i | None => 0 end in
    let iR := match fR with Some i => i | None => 0 end in
    let free := has (fcSp ch) (bFree B) in
    o <- (if exL then x <- fs mL mR (fcN ch) (fcS ch) (fcT ch) free;; put o l iL (Some x) else Ok o);;
    o <- (if exR then _ <- check (negb free);; x <- fs mR mL (vopp opp (fcN ch)) (fcS ch) (fcT ch) false;; put o r iR (Some x) else Ok o);;
    dL <- (if exL then rd (iJDet I) l else Ok one);; dR <- (if exR then rd (iJDet I) r else Ok one);;
    _ <- check (negb exL || ltb zero dL);; _ <- check (negb exR || ltb zero dR);; _ <- check (ltb zero (fcArea ch));;
    o <- (if exL then rescale o l iL (scaling (fcArea ch) dL) else Ok o);;
    (if exR then rescale o r iR (scaling (fcArea ch) dR) else Ok o)
  end.

(** AderDgInit.hpp 413-665 *)
Definition initFsOf (nEls nFas : nat) : res arr := for_ 0 nFas initFace (repeat (repeat None (nElFas el)) nEls).
End Loop.

(** AderDgInit.hpp 396-666 *)
Definition initFs (el : elType) (B : bmasks) (I : fsIn) (nEls nFas : nat) : res arr := initFsOf el (setUpFs el) B I nEls nFas.
End Init.
