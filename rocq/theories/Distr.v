(** Set-up of the communication: buffers, pointers of the communicating faces, messages, owners of minima, buffer indices.

    Models src/parallel/Distributed.cpp, and the places which use the buffers: src/parallel/MpiRemix.cpp,
    src/parallel/Gaspi.cpp, src/impl/seismic/steps.inc.
    Simplifications: unbounded numbers; a pointer into the send (receive) buffers is its offset to the start of the buffers
    or [None] for a null pointer; bytes of the buffers are not part of this model. *)
From Verif Require Import Util.

(** Models src/parallel/Distributed.h:87-105 (t_msg). *)
Record msg := mkMsg { tgL : nat; tgR : nat; mRank : nat; mTag : nat; mSize : nat; mOff : nat }.

(** Members which Distributed::init sets. Models src/parallel/Distributed.h:44-111. *)
Record dist := mkDist {
  dTgs : nat; dCB : nat;
  dSendSize : nat; dRecvSize : nat;              (* m_sendBufferSize, m_recvBufferSize *)
  dSendPtrs : list (list (option nat));          (* m_sendPtrs *)
  dRecvPtrs : list (list (option nat));          (* m_recvPtrs *)
  dNSeRe : list nat;                             (* m_nSeRe *)
  dSendMsgs : list msg; dRecvMsgs : list msg
}.

(** Bytes per face of a send slot and of a receive slot. Models src/parallel/Distributed.cpp:241-242 (and 153-154, 205-206). *)
Definition sendLen (nByFa tg tgAd : nat) : nat := if tgAd <? tg then nByFa * 2 else nByFa.
Definition recvLen (nByFa tg tgAd : nat) : nat := if tg <? tgAd then nByFa * 2 else nByFa.

(** Communication buffer to which the receive pointer [po] refers. Models src/parallel/Distributed.cpp:233-238. *)
Definition recvPtrBuf (tg tgAd po : nat) : nat := if tgAd <=? tg then po mod 2 else (po / 2) mod 2.

(** Sets an entry in all pointer arrays. Models src/parallel/Distributed.cpp:229-230, 232-239. *)
Definition setPtrs (ptrs : list (list (option nat))) (pos : nat) (v : nat -> nat) : res (list (list (option nat))) :=
  for_ 0 (length ptrs) (fun po ptrs => row <- rd ptrs po ;; row <- wr row pos (Some (v po)) ;; wr ptrs po row) ptrs.

(** The state of the loop over the channels. *)
Record lst := mkLst {
  offSend : nat; offRecv : nat; lFirst : nat;
  lSend : list (list (option nat)); lRecv : list (list (option nat))
}.

(** Models src/parallel/Distributed.cpp:223-243. *)
Definition initFaces (nElFas nByFa sizeSend sizeRecv tg tgAd nSeRe : nat) (sendFa sendEl recvFa recvEl : list nat) (s : lst)
  : res lst :=
  for_ 0 nSeRe (fun co s =>
    seFa <- rd sendFa (lFirst s + co) ;;
    seEl <- rd sendEl (lFirst s + co) ;;
    reFa <- rd recvFa (lFirst s + co) ;;
    reEl <- rd recvEl (lFirst s + co) ;;
    sp <- setPtrs (lSend s) (seEl * nElFas + seFa) (fun po => (po mod 2) * sizeSend + offSend s) ;;
    rp <- setPtrs (lRecv s) (reEl * nElFas + reFa) (fun po => recvPtrBuf tg tgAd po * sizeRecv + offRecv s) ;;
    Ok (mkLst (offSend s + sendLen nByFa tg tgAd) (offRecv s + recvLen nByFa tg tgAd) (lFirst s) sp rp)) s.

(** Models src/parallel/Distributed.cpp:121-248 (init); [cs]: the communication structure, [None] for a null pointer. *)
Definition distInit (nTgs nElFas nEls nByFa : nat) (cs : option (list nat)) (sendFa sendEl recvFa recvEl : list nat) (nCB : nat)
  : res dist :=
  _ <- check ((nCB =? 1) || (nCB =? 2)) ;;
  nChs <- match cs with Some l => rd l 0 | None => Ok 0 end ;;
  let l := match cs with Some l => l | None => [] end in
  (* sizes of the buffers, 145-155 *)
  '(sizeSend, sizeRecv, nSeRe) <- for_ 0 nChs (fun ch '(sizeSend, sizeRecv, nSeRe) =>
    tg <- rd l (1 + ch * 4 + 0) ;; tgAd <- rd l (1 + ch * 4 + 2) ;; n <- rd l (1 + ch * 4 + 3) ;;
    Ok (sizeSend + (if tgAd <? tg then 2 * n * nByFa else n * nByFa),
        sizeRecv + (if tg <? tgAd then 2 * n * nByFa else n * nByFa), nSeRe ++ [n])) (0, 0, []) ;;
  (* pointers, 165-189 *)
  let nPtrsSend := nCB in
  let nPtrsRecv := if nCB =? 2 then 4 else 1 in
  let sp := repeat (repeat None (nEls * nElFas)) nPtrsSend in
  let rp := repeat (repeat None (nEls * nElFas)) nPtrsRecv in
  (* messages and pointers, 195-245 *)
  '(s, sm, rm) <- for_ 0 nChs (fun ch '(s, sm, rm) =>
    tg <- rd l (1 + ch * 4 + 0) ;; raAd <- rd l (1 + ch * 4 + 1) ;;
    tgAd <- rd l (1 + ch * 4 + 2) ;; n <- rd l (1 + ch * 4 + 3) ;;
    let szS := if tgAd <? tg then n * nByFa * 2 else n * nByFa in
    let szR := if tg <? tgAd then n * nByFa * 2 else n * nByFa in
    let sm := sm ++ [mkMsg tg tgAd raAd (tg * nTgs + tgAd) szS (offSend s)] in
    let rm := rm ++ [mkMsg tg tgAd raAd (tgAd * nTgs + tg) szR (offRecv s)] in
    s <- initFaces nElFas nByFa sizeSend sizeRecv tg tgAd n sendFa sendEl recvFa recvEl s ;;
    Ok (mkLst (offSend s) (offRecv s) (lFirst s + n) (lSend s) (lRecv s), sm, rm)) (mkLst 0 0 0 sp rp, [], []) ;;
  Ok (mkDist nTgs nCB sizeSend sizeRecv (lSend s) (lRecv s) nSeRe sm rm).

(* ------------------------------------------------------------------ *)

(** Models src/parallel/Distributed.cpp:30-38 (sendCommBuffers2): local buffer, remote buffer for a larger group ([None]: no
    message), remote buffer otherwise; [n]: number of the send in the synchronization interval. *)
Definition sendCommBuffers2 (n : nat) : nat * option nat * nat :=
  (n mod 2, if n mod 2 =? 1 then Some ((n / 2) mod 2) else None, n mod 2).

(** Models src/parallel/Distributed.cpp:40-45 (recvCommBuffers2): buffers of messages from larger groups and of others. *)
Definition recvCommBuffers2 (n : nat) : nat * nat := ((n / 2) mod 2, n mod 2).

(** Remote buffer of a write by Gaspi::beginSends. Models src/parallel/Gaspi.cpp:194-198. *)
Definition gaspiRemote (n tg tgAd : nat) : option nat :=
  let '(_, lt, ge) := sendCommBuffers2 n in if tg <? tgAd then lt else Some ge.

(** Buffer in which Gaspi::finRecvs looks for the notification. Models src/parallel/Gaspi.cpp:249-263. *)
Definition gaspiLocal (n tg tgAd : nat) : nat :=
  let '(lt, ge) := recvCommBuffers2 n in if tg <? tgAd then lt else ge.

(** Pointer array which the local step of update [u] writes. Models src/impl/seismic/steps.inc:26. *)
Definition sendPtrIdx (nCB u : nat) : nat := u mod nCB.
(** Pointer array which the neighbouring step of update [u] reads. Models src/impl/seismic/steps.inc:57. *)
Definition recvPtrIdx (nCB u : nat) : nat := (u / nCB) mod nCB.

(* ------------------------------------------------------------------ *)

(** Messages of syncData: source, destination, tag, data. *)
Record smsg := mkSmsg { sSrc : nat; sDst : nat; sTag : nat; sDat : list nat }.

(** The sends issued by a rank. Models src/parallel/Distributed.cpp:301-328 (the sends of syncData). *)
Fixpoint syncSends (rank nByCh nByFa : nat) (nSeRe : list nat) (sm : list msg) (data : list nat) : list smsg :=
  match nSeRe, sm with
  | n :: nSeRe, m :: sm =>
      let size := n * nByFa + nByCh in
      mkSmsg rank (mRank m) (mTag m) (firstn size data) :: syncSends rank nByCh nByFa nSeRe sm (skipn size data)
  | _, _ => []
  end.

(** The data received by a rank: every receive obtains the first message in flight with matching source, destination and tag
    (MPI: messages between two ranks with the same tag do not overtake each other); the sizes have to agree.
    Models src/parallel/Distributed.cpp:301-338 (the receives of syncData). *)
Fixpoint syncRecvs (rank nByCh nByFa : nat) (nSeRe : list nat) (rm : list msg) (fly : list smsg) : res (list nat) :=
  match nSeRe, rm with
  | n :: nSeRe, m :: rm =>
      let size := n * nByFa + nByCh in
      match find (fun x => (sSrc x =? mRank m) && (sDst x =? rank) && (sTag x =? mTag m)) fly with
      | Some x =>
          _ <- check (length (sDat x) =? size) ;;
          d <- syncRecvs rank nByCh nByFa nSeRe rm fly ;; Ok (sDat x ++ d)
      | None => Er Efuel                            (* waits forever *)
      end
  | _, _ => Ok []
  end.

(* ------------------------------------------------------------------ *)

(** The values are compared by [leb]; [==] is [leb] in both directions. *)
Section Min.
Context {V : Type} (leb : V -> V -> bool).
Definition vmin (a b : V) : V := if leb a b then a else b.
Definition veq (a b : V) : bool := leb a b && leb b a.

(** MPI_Allreduce with MPI_MIN over the ranks 0, .., n: the reduction of the values [f 0], .., [f n]. *)
Fixpoint redMin {A} (mn : A -> A -> A) (f : nat -> A) (n : nat) : A :=
  match n with 0 => f 0 | S n => mn (redMin mn f n) (f (S n)) end.

(** The bid of a rank for one value. Models src/parallel/Distributed.cpp:269-282; [imax]: the largest int. *)
Definition bid (imax nRanks : nat) (vals : nat -> V) (rank : nat) : nat :=
  if veq (vals rank) (redMin vmin vals (nRanks - 1)) then rank else imax.

(** The result of a rank for one value: whether it owns the minimum. Models src/parallel/Distributed.cpp:257-291 (min). *)
Definition ownsMin (imax nRanks : nat) (vals : nat -> V) (rank : nat) : bool :=
  redMin Nat.min (bid imax nRanks vals) (nRanks - 1) =? rank.
End Min.
