(** EDGEcut: extrusion of a surface (tools/edge_cut/src/mesh/Extrude.cpp).  Simplifications: coordinates are exact (Qc); the text of the OFF-files is left out:
    a file holds the announced numbers of points and triangles, the points and the triangles. *)
From Coq Require Import QArith Qcanon Qround.
From Verif Require Import Util.
Open Scope nat_scope.

Definition point := (Qc * Qc * Qc)%type.
Definition px (p : point) : Qc := fst (fst p).
Definition py (p : point) : Qc := snd (fst p).
Definition pz (p : point) : Qc := snd p.
Definition qlt (a b : Qc) : bool := match (a ?= b)%Qc with Lt => true | _ => false end.
(** operator< of std::tuple *)
Definition ptLt (p q : point) : bool :=
  if qlt (px p) (px q) then true else if qlt (px q) (px p) then false else
  if qlt (py p) (py q) then true else if qlt (py q) (py p) then false else qlt (pz p) (pz q).

(** *** Triangles *)
Definition tria := (nat * nat * nat)%type.
(** returned number of triangles, written triangles *)
Definition outp := (nat * list tria)%type.
Definition oapp (a b : outp) : outp := (fst a + fst b, snd a ++ snd b).
Infix "+++" := oapp (at level 60, right associativity).
(** a loop, which sums the returned numbers *)
Fixpoint ofor (f : nat -> outp) (l : list nat) : outp := match l with [] => (0, []) | i :: l => f i +++ ofor f l end.
(** 45-60 (writeTriasBlTr) *)
Definition triasBlTr (o sx sy : nat) : outp := (2, [(o, o + sx, o + sx + sy); (o, o + sx + sy, o + sy)]).
(** 62-76 (writeTriasBrTl) *)
Definition triasBrTl (o sx sy : nat) : outp := (2, [(o, o + sx, o + sy); (o + sx, o + sx + sy, o + sy)]).
(** 78-96 (writeTriasCr) *)
Definition triasCr (o sx sy : nat) : outp :=
  (3, [(o, o + 2 * sx, o + 2 * sx + 1 * sy); (o, o + 2 * sx + 1 * sy, o + 2 * sy); (o + 2 * sx + 1 * sy, o + 2 * sx + 2 * sy, o + 2 * sy)]).
(** 98-116 (writeTriasCl) *)
Definition triasCl (o sx sy : nat) : outp :=
  (3, [(o, o + 2 * sx, o + 1 * sy); (o + 2 * sx, o + 2 * sx + 2 * sy, o + 1 * sy); (o + 1 * sy, o + 2 * sx + 2 * sy, o + 2 * sy)]).
(** 118-136 (writeTriasCt) *)
Definition triasCt (o sx sy : nat) : outp :=
  (3, [(o, o + 1 * sx + 2 * sy, o + 2 * sy); (o, o + 2 * sx, o + 1 * sx + 2 * sy); (o + 2 * sx, o + 2 * sx + 2 * sy, o + 1 * sx + 2 * sy)]).
(** 138-156 (writeTriasCb) *)
Definition triasCb (o sx sy : nat) : outp :=
  (3, [(o, o + 1 * sx, o + 2 * sy); (o + 1 * sx, o + 2 * sx + 2 * sy, o + 2 * sy); (o + 1 * sx, o + 2 * sx, o + 2 * sx + 2 * sy)]).

(** for( v = lo; v < hi; v += st ), positive st *)
Definition steps (lo hi st : nat) : list nat := map (fun k => lo + k * st) (seq 0 ((hi - lo + st - 1) / st)).
(** differences of std::size_t; a negative result wraps around: an error here *)
Fixpoint usubs (a : nat) (l : list nat) : res nat := match l with [] => Ok a | b :: l => if b <=? a then usubs (a - b) l else Er Eub end.

(** 172-229: one level; [b]: l_buffer, [s]: l_stride.  The bounds of the loops are evaluated once *)
Definition ring (nx ny b s : nat) : res outp :=
  r <- usubs nx [1; b; s] ;; t <- usubs ny [1; b; s] ;; ye <- usubs ny [b; s; 1] ;; xe <- usubs nx [b; s; 1] ;;
  Ok (triasBlTr (b * ny + b) (s * ny) s +++ triasBrTl (r * ny + b) (s * ny) s +++ triasBrTl (b * ny + t) (s * ny) s +++ triasBlTr (r * ny + t) (s * ny) s +++
      ofor (fun vy => triasCr (b * ny + vy) (s / 2 * ny) (s / 2)) (steps (b + s) ye s) +++
      ofor (fun vy => triasCl (r * ny + vy) (s / 2 * ny) (s / 2)) (steps (b + s) ye s) +++
      ofor (fun vx => triasCt (b + vx) (s / 2 * ny) (s / 2)) (steps ((b + s) * ny) (xe * ny) (s * ny)) +++
      ofor (fun vx => triasCb (t + vx) (s / 2 * ny) (s / 2)) (steps ((b + s) * ny) (xe * ny) (s * ny))).
(** 166-230: all levels; returns the final l_buffer, too *)
Fixpoint rings (lv nx ny b s : nat) : res (outp * nat) :=
  match lv with O => Ok ((0, []), b) | S lv => l <- ring nx ny b s ;; '(l', b') <- rings lv nx ny (b + s) (s / 2) ;; Ok (l +++ l', b') end.
(** 158-242 (writeTriaOff) *)
Definition triaOff (nx ny levels : nat) : res outp :=
  '(l, b) <- rings levels nx ny 0 (2 ^ levels) ;; xe <- usubs nx [1; b] ;; ye <- usubs ny [1; b] ;;
  Ok (l +++ ofor (fun vx => ofor (fun vy => triasBlTr (vx * ny + vy) ny 1) (steps b ye 1)) (steps b xe 1)).

(** *** Constructor *)
(** 28-43 (addSide) *)
Definition ofNat (n : nat) : Qc := Q2Qc (inject_Z (Z.of_nat n)).
Definition lower (nSteps st : nat) (zT : Qc) (p : point) : point := (px p, py p, (pz p + ofNat st * ((zT - pz p) / ofNat nSteps))%Qc).
Definition addSide (nSteps : nat) (zT : Qc) (bnd : list point) : list point := flat_map (fun st => map (lower nSteps st zT) bnd) (seq 0 (nSteps + 1)).
(** 284-292, std::abs of double and the search: number of points up to the first jump of the x-coordinates *)
Definition qabs (a : Qc) : Qc := if qlt a 0 then (- a)%Qc else a.
Fixpoint jump (eps : Qc) (l : list point) : option nat :=
  match l with a :: (b :: _) as t => if qlt eps (qabs (px a - px b)) then Some 1 else option_map S (jump eps t) | _ => None end.
(** std::min with an initial value which exceeds all others: None *)
Definition omin (a : option Qc) (b : Qc) : option Qc := match a with None => Some b | Some a => Some (if qlt b a then b else a) end.
(** 314-323: minimum of the values of a loop *)
Fixpoint foldMin (f : nat -> res Qc) (l : list nat) (a : option Qc) : res (option Qc) := match l with [] => Ok a | i :: l => v <- f i ;; foldMin f l (omin a v) end.
(** 333-370, 428-438: loops which gather points *)
Fixpoint rdAll (l : list point) (is : list nat) : res (list point) := match is with [] => Ok [] | i :: is => p <- rd l i ;; r <- rdAll l is ;; Ok (p :: r) end.
(** 264-274: m_veMaxSurf[2] *)
Definition maxZ (l : list point) : option Qc := fold_left (fun a p => match a with None => Some (pz p) | Some m => Some (if qlt m (pz p) then pz p else m) end) l None.

(** members of the class (Extrude.h, 41-86), without m_veMinSurf, m_veMaxSurf, m_dMin and m_eps, which writeOff does not use *)
Record extr := { eSurf : list point; eNx0 : nat; eNy0 : nat; eNx1 : nat; eNy1 : nat; eRef : nat; eLv : nat; eSteps : nat; eZ : Qc;
  eFront : list point; eBack : list point; eLeft : list point; eRight : list point }.

Section Extrude.
(** std::sort *)
Variable srt : forall A : Type, (A -> A -> bool) -> list A -> list A.

(** 254-375 (Extrude); from level 16 on m_refRatio, an unsigned short, is zero *)
Definition extrude (pts : list point) (zT : Qc) (levels : nat) (eps : Qc) : res extr :=
  let surf := srt point ptLt pts in
  _ <- (match pts with [] => Er Eub | _ => Ok tt end) ;;
  ny0 <- (match jump eps surf with Some n => Ok n | None => Er Echeck end) ;;
  _ <- check (length pts mod ny0 =? 0) ;; let nx0 := length pts / ny0 in
  ref <- (if levels <? 16 then Ok (2 ^ levels) else Er Eub) ;;
  nx0m <- usubs nx0 [1] ;; ny0m <- usubs ny0 [1] ;; _ <- check (nx0m mod ref =? 0) ;; _ <- check (ny0m mod ref =? 0) ;;
  let nx1 := if 1 <? ref then nx0 / ref + 1 else nx0 in let ny1 := if 1 <? ref then ny0 / ref + 1 else ny0 in
  dy <- foldMin (fun l => a <- rd surf ((l + 1) * ref) ;; b <- rd surf l ;; Ok (py a - py b)%Qc) (seq 0 (ny1 - 1)) None ;;
  xe <- usubs nx0 [ref] ;;
  dx <- foldMin (fun l => a <- rd surf (l + ny0 * ref) ;; b <- rd surf l ;; Ok (px a - px b)%Qc) (steps 0 (xe * ny0) (ny0 * ref)) None ;;
  dist <- (match maxZ surf with Some m => Ok (m - zT)%Qc | None => Er Eub end) ;; _ <- check (qlt 0 dist) ;;
  d <- (match dx, dy with Some a, Some b => Ok (if qlt b a then b else a) | Some a, None => Ok a | None, Some b => Ok b | None, None => Er Eub end) ;;
  nSteps <- (if qlt 0 d then Ok (Z.to_nat (Qfloor (dist / d)%Qc) + 1) else Er Eub) ;;
  front <- rdAll surf (steps 0 (nx0 * ny0) (ny0 * ref)) ;;
  back <- rdAll surf (map (fun l => ny0 - 1 + l) (steps 0 (nx0 * ny0) (ny0 * ref))) ;;
  left <- rdAll surf (steps 0 ny0 ref) ;;
  right <- rdAll surf (map (fun l => (nx0 - 1) * ny0 + l) (steps 0 ny0 ref)) ;;
  Ok {| eSurf := surf; eNx0 := nx0; eNy0 := ny0; eNx1 := nx1; eNy1 := ny1; eRef := ref; eLv := levels; eSteps := nSteps; eZ := zT;
        eFront := addSide nSteps zT front; eBack := addSide nSteps zT (rev back); eLeft := addSide nSteps zT (rev left); eRight := addSide nSteps zT right |}.

(** *** Output *)
(** numbers of the header, points, triangles *)
Record off := { oNv : nat; oNt : nat; oPts : list point; oTri : list tria }.
(** 391-398 (left; 400-425 likewise) *)
Definition side (nt : nat) (pts : list point) (nx ny : nat) : res off := t <- triaOff nx ny 0 ;; Ok {| oNv := length pts; oNt := nt; oPts := pts; oTri := snd t |}.
(** 377-456 (writeOff): left, right, front, back, bottom, top *)
Definition writeOff (e : extr) : res (list off) :=
  left <- side ((eNy1 e - 1) * eSteps e * 2) (eLeft e) (eSteps e + 1) (eNy1 e) ;;
  right <- side ((eNy1 e - 1) * eSteps e * 2) (eRight e) (eSteps e + 1) (eNy1 e) ;;
  front <- side ((eNx1 e - 1) * eSteps e * 2) (eFront e) (eSteps e + 1) (eNx1 e) ;;
  back <- side ((eNx1 e - 1) * eSteps e * 2) (eBack e) (eSteps e + 1) (eNx1 e) ;;
  bot <- rdAll (eSurf e) (flat_map (fun vy => map (fun vx => vx * eNy0 e + vy) (steps 0 (eNx0 e) (eRef e))) (steps 0 (eNy0 e) (eRef e))) ;;
  bottom <- side ((eNx1 e - 1) * (eNy1 e - 1) * 2) (map (fun p => (px p, py p, eZ e)) bot) (eNy1 e) (eNx1 e) ;;
  tt_ <- triaOff (eNx0 e) (eNy0 e) (eLv e) ;;
  Ok [left; right; front; back; bottom; {| oNv := length (eSurf e); oNt := fst tt_; oPts := eSurf e; oTri := snd tt_ |}].
(** construction and output, as in tools/edge_cut/src/main.cpp *)
Definition cut_ (pts : list point) (zT : Qc) (levels : nat) (eps : Qc) : res (list off) := e <- extrude pts zT levels eps ;; writeOff e.
End Extrude.
