(** Memory and data layout: model of edge::data::EntityLayout, edge::data::Dynamic, edge::data::DataLayout and of
    edge::data::common::allocate / release.

    Simplifications: integers are [nat] (no overflow); pointers into the raw memory are offsets from its base in units of the
    stored type; nullptr is [None]. *)
From Verif Require Import Util Sparse.

(** * Entity layouts *)

(** Models src/data/EntityLayout.type:28-31 (t_timeRegion). *)
Record rgn := mkRgn { rFirst : nat; rSize : nat }.

(** Models src/data/EntityLayout.type:34-55 (t_timeGroup), without the neighbouring ranks and time groups, which
    sizesToLayout does not touch. *)
Record tgrp := mkTg { tOwn : nat; tNotOwn : nat; tInner : rgn; tSend : list rgn; tRecv : list rgn }.

(** Models src/data/EntityLayout.type:58-64 (t_enLayout). *)
Record lay := mkLay { lEnts : nat; lTgs : list tgrp }.

(** Models src/data/EntityLayout.cpp:29-41: zeroes everything except of the sizes; the loop over l_nr walks send and receive,
    which are checked to have the same length. *)
Fixpoint initTgs (tgs : list tgrp) : res (list tgrp) :=
  match tgs with
  | [] => Ok []
  | g :: tgs' =>
      _ <- check (length (tSend g) =? length (tRecv g)) ;;
      tgs' <- initTgs tgs' ;;
      Ok (mkTg 0 0 (mkRgn 0 (rSize (tInner g))) (map (fun r => mkRgn 0 (rSize r)) (tSend g))
            (map (fun r => mkRgn 0 (rSize r)) (tRecv g)) :: tgs')
  end.

(** Models src/data/EntityLayout.cpp:44-51: inner regions; [off] is l_off. *)
Fixpoint setInner (off : nat) (tgs : list tgrp) : nat * list tgrp :=
  match tgs with
  | [] => (off, [])
  | g :: tgs' =>
      let s := rSize (tInner g) in
      let '(off', tgs') := setInner (off + s) tgs' in
      (off', mkTg (tOwn g + s) (tNotOwn g) (mkRgn off s) (tSend g) (tRecv g) :: tgs')
  end.

(** Models src/data/EntityLayout.cpp:55-61: send regions of one time group; [own] is nEntsOwn. *)
Fixpoint setSendRgns (off own : nat) (rs : list rgn) : nat * nat * list rgn :=
  match rs with
  | [] => (off, own, [])
  | r :: rs' => let '(off', own', rs') := setSendRgns (off + rSize r) (own + rSize r) rs' in (off', own', mkRgn off (rSize r) :: rs')
  end.

(** Models src/data/EntityLayout.cpp:53-62. *)
Fixpoint setSend (off : nat) (tgs : list tgrp) : nat * list tgrp :=
  match tgs with
  | [] => (off, [])
  | g :: tgs' =>
      let '(off, own, se) := setSendRgns off (tOwn g) (tSend g) in
      let '(off, tgs') := setSend off tgs' in
      (off, mkTg own (tNotOwn g) (tInner g) se (tRecv g) :: tgs')
  end.

(** Models src/data/EntityLayout.cpp:27-65. *)
Definition sizesToLayout (l : lay) : res lay :=
  tgs <- initTgs (lTgs l) ;;
  let '(off, tgs) := setInner 0 tgs in
  let '(off, tgs) := setSend off tgs in
  Ok (mkLay off tgs).

(** Models src/mesh/EdgeV.cpp:32-52 (setElLayout); [combine]: the arrays have i_nTgs entries. *)
Definition setElLayout (nIn nSe : list nat) : res lay :=
  sizesToLayout (mkLay 0 (map (fun '(i, s) => mkTg 0 0 (mkRgn 0 i) [mkRgn 0 s] [mkRgn 0 0]) (combine nIn nSe))).

(** * Flexible data *)

(** Size of the raw memory in units of the stored type.  Models src/data/Dynamic.h:124-136. *)
Definition flexSize (nEn nSp bSize : nat) (spTypes : list N) (spSizes : list nat) (chars : list N) : res nat :=
  for_ 0 nEn (fun en mem =>
    for_ 0 nSp (fun st mem =>
      c <- rd chars en ;; t <- rd spTypes st ;;
      if has c t then s <- rd spSizes st ;; Ok (mem + s) else Ok mem) (mem + bSize)) 0.

(** The pointers of flex and the size of the raw memory. The array of pointers is uninitialised ([garbage]) before.
    Models src/data/Dynamic.h:110-172. *)
Definition flex (garbage : option nat) (nEn nSp bSize : nat) (spTypes : list N) (spSizes : list nat) (chars : list N)
  : res (nat * list (option nat)) :=
  mem <- flexSize nEn nSp bSize spTypes spSizes chars ;;
  let ptrs := repeat garbage ((nSp + 1) * nEn + 1) in
  '(raw, ptrs) <- for_ 0 nEn (fun en '(raw, ptrs) =>
     ptrs <- wr ptrs en (Some raw) ;; Ok (raw + bSize, ptrs)) (0, ptrs) ;;
  '(raw, ptrs) <- for_ 0 nSp (fun st '(raw, ptrs) =>
     for_ 0 nEn (fun en '(raw, ptrs) =>
       c <- rd chars en ;; t <- rd spTypes st ;;
       if has c t
       then ptrs <- wr ptrs (nEn * (st + 1) + en) (Some raw) ;; s <- rd spSizes st ;; Ok (raw + s, ptrs)
       else ptrs <- wr ptrs (nEn * (st + 1) + en) None ;; Ok (raw, ptrs)) (raw, ptrs)) (raw, ptrs) ;;
  ptrs <- wr ptrs ((nSp + 1) * nEn) (Some raw) ;;
  Ok (mem, ptrs).

(** * Adjacency-based layout *)

(** l_raw, o_ptrs, o_send and o_recv of DataLayout::adj *)
Record ast := mkAst { aRaw : nat; aPtrs : list (list (option nat)); aSend : list (list nat); aRecv : list (list nat) }.

(** One assignment o_ptrs[en][ad] = l_raw; l_raw++ with the preceding check.
    Models src/data/DataLayout.hpp:110-115 (and 142-146, 180-184, 218-223). *)
Definition adjAssign (en ad : nat) (s : ast) : res ast :=
  row <- rd (aPtrs s) en ;;
  p <- rd row ad ;;
  _ <- check (match p with None => true | Some _ => false end) ;;
  row <- wr row ad (Some (aRaw s)) ;;
  ptrs <- wr (aPtrs s) en row ;;
  Ok (mkAst (S (aRaw s)) ptrs (aSend s) (aRecv s)).

(** Is the adjacency relevant for the sparse type?  Models src/data/DataLayout.hpp:104-108 (and 132-136, 171-175, 208-212). *)
Definition adjSkip (sp : option (list (option nat))) (en enAd : nat) : res bool :=
  match sp with
  | None => Ok false
  | Some l => a <- rd l en ;; match a with Some _ => Ok false | None => b <- rd l enAd ;; Ok (match b with None => true | Some _ => false end) end
  end.

(** The loops over the entities of one region and their adjacent entities; [p] is the test of the respective loop.
    Models src/data/DataLayout.hpp:98-117, 126-149, 165-187 and 202-226, which share this form. *)
Definition adjRgn (nAd : nat) (enAd : list (option nat)) (sp : option (list (option nat))) (r : rgn) (p : nat -> res bool) (s : ast) : res ast :=
  for_ (rFirst r) (rFirst r + rSize r) (fun en s =>
    for_ 0 nAd (fun ad s =>
      a <- rd enAd (en * nAd + ad) ;;
      match a with
      | None => Ok s
      | Some a =>
          skip <- adjSkip sp en a ;;
          if (skip : bool) then Ok s else
          b <- p a ;; if (b : bool) then adjAssign en ad s else Ok s
      end) s) s.

Definition inRgn (r : rgn) (en : nat) : bool := (rFirst r <=? en) && (en <? rFirst r + rSize r).

(** Send regions, data which does not go to the corresponding receive region. The loop over l_sr walks send and receive.
    Models src/data/DataLayout.hpp:122-150. *)
Fixpoint adjSendOther nAd enAd sp (ses res_ : list rgn) (s : ast) : res ast :=
  match ses, res_ with
  | se :: ses, re :: res_ =>
      s <- adjRgn nAd enAd sp se (fun a => Ok (negb (inRgn re a))) s ;; adjSendOther nAd enAd sp ses res_ s
  | [], _ => Ok s
  | _ :: _, [] => Er Eub
  end.

(** Send regions, data for the corresponding receive region; also returns the pointers added to o_send.back().
    Models src/data/DataLayout.hpp:153-188. *)
Fixpoint adjSend nAd enAd sp (ses res_ : list rgn) (s : ast) : res (ast * list nat) :=
  match ses, res_ with
  | se :: ses, re :: res_ =>
      let b := aRaw s in
      s <- adjRgn nAd enAd sp se (fun a => Ok (inRgn re a)) s ;;
      '(s, bs) <- adjSend nAd enAd sp ses res_ s ;; Ok (s, b :: bs)
  | [], _ => Ok (s, [])
  | _ :: _, [] => Er Eub
  end.

(** Receive regions of time group [tg].  Models src/data/DataLayout.hpp:194-227. *)
Fixpoint adjRecv nAd enAd sp (tg : nat) (inner : rgn) (nOwn : nat) (res_ : list rgn) (s : ast) : res (ast * list nat) :=
  match res_ with
  | re :: res_ =>
      let b := aRaw s in
      s <- adjRgn nAd enAd sp re (fun a =>
             _ <- check (rFirst inner + rSize inner <=? a) ;; _ <- check (tg =? 0) ;; Ok (a <? rFirst inner + nOwn)) s ;;
      '(s, bs) <- adjRecv nAd enAd sp tg inner nOwn res_ s ;; Ok (s, b :: bs)
  | [] => Ok (s, [])
  end.

(** One time group.  Models src/data/DataLayout.hpp:90-231. *)
Definition adjTg nAd enAd sp (tg : nat) (g : tgrp) (s : ast) : res ast :=
  s <- adjRgn nAd enAd sp (tInner g) (fun _ => Ok true) s ;;
  s <- adjSendOther nAd enAd sp (tSend g) (tRecv g) s ;;
  '(s, se) <- adjSend nAd enAd sp (tSend g) (tRecv g) s ;;
  let se := se ++ [aRaw s] in
  '(s, re) <- adjRecv nAd enAd sp tg (tInner g) (tOwn g) (tRecv g) s ;;
  let re := re ++ [aRaw s] in
  Ok (mkAst (aRaw s) (aPtrs s) (aSend s ++ [se]) (aRecv s ++ [re])).

Fixpoint adjTgs nAd enAd sp (tg : nat) (tgs : list tgrp) (s : ast) : res ast :=
  match tgs with [] => Ok s | g :: tgs => s <- adjTg nAd enAd sp tg g s ;; adjTgs nAd enAd sp (S tg) tgs s end.

(** Models src/data/DataLayout.hpp:62-232; o_send and o_recv are empty before; o_ptrs has one row per entity, which the first
    loop (85-87) fills with nullptr. *)
Definition adj (nAd : nat) (enAd : list (option nat)) (l : lay) (sp : option (list (option nat))) : res ast :=
  adjTgs nAd enAd sp 0 (lTgs l) (mkAst 0 (repeat (repeat None nAd) (lEnts l)) [] []).

(** * Allocation *)

(** The libraries which provide and free memory: posix_memalign / free, memkind, hugetlbfs. *)
Inductive lib := LPosix | LHbw | LHuge.

(** compile-time configuration: PP_USE_MEMKIND, PP_USE_HUGETLBFS *)
Record cfg := mkCfg { useMemkind : bool; useHuge : bool }.

(** The library of an allocation; [None]: nullptr is returned.  Models src/data/common.hpp:225-267. *)
Definition allocLib (c : cfg) (size : nat) (hbw huge : bool) : option lib :=
  if 0 <? size then
    Some (if useMemkind c && hbw then LHbw else if useHuge c && huge then LHuge else LPosix)
  else None.

(** The library through which memory is freed.  Models src/data/common.hpp:275-305 for a pointer which is not null. *)
Definition releaseLib (c : cfg) (hbw huge : bool) : lib :=
  if useMemkind c && hbw then LHbw else if useHuge c && huge then LHuge else LPosix.

(** memory of the process: addresses of the live blocks and the library which provided them *)
Definition heap := list (nat * lib).

Definition lib_eqb (a b : lib) : bool :=
  match a, b with LPosix, LPosix | LHbw, LHbw | LHuge, LHuge => true | _, _ => false end.

(** Frees a block; freeing anything which is not a live block of the library is undefined behaviour. *)
Fixpoint heapFree (h : heap) (a : nat) (k : lib) : res heap :=
  match h with
  | [] => Er Eub
  | (a', k') :: h => if (a =? a') && lib_eqb k k' then Ok h else h' <- heapFree h a k ;; Ok ((a', k') :: h')
  end.

(** Models src/data/Dynamic.h:38-43 (members of Dynamic). *)
Record dyn := mkDyn { dMem : list (option nat); dHbw : list bool; dHuge : list bool }.

(** A call of allocate; [rAns]: answer of the system, [None] if the allocation fails. *)
Record req := mkReq { rqSize : nat; rHbw : bool; rHuge : bool; rAns : option nat }.

(** Models src/data/Dynamic.cpp:32-45 and the check in src/data/common.hpp:261. *)
Definition dynAlloc (c : cfg) (r : req) (s : dyn * heap) : res (dyn * heap) :=
  let '(d, h) := s in
  '(p, h) <- match allocLib c (rqSize r) (rHbw r) (rHuge r) with
             | None => Ok (None, h)
             | Some k => match rAns r with None => Er Echeck | Some a => Ok (Some a, (a, k) :: h) end
             end ;;
  Ok (mkDyn (dMem d ++ [p]) (dHbw d ++ [rHbw r]) (dHuge d ++ [rHuge r]), h).

Fixpoint dynAllocs (c : cfg) (rs : list req) (s : dyn * heap) : res (dyn * heap) :=
  match rs with [] => Ok s | r :: rs => s <- dynAlloc c r s ;; dynAllocs c rs s end.

(** Models src/data/Dynamic.cpp:26-30 (destructor). *)
Definition dynDestroy (c : cfg) (d : dyn) (h : heap) : res heap :=
  for_ 0 (length (dMem d)) (fun me h =>
    p <- rd (dMem d) me ;; hbw <- rd (dHbw d) me ;; huge <- rd (dHuge d) me ;;
    match p with None => Ok h | Some a => heapFree h a (releaseLib c hbw huge) end) h.
