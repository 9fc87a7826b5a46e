(** Communication structure of the preprocessor: model of edge_v::mesh::Communication.

    Integers are [nat]; std::numeric_limits< t_idx >::max() as id of an element or partition and
    std::numeric_limits< unsigned short >::max() as time group or face are [None].  Partitions, time groups and numbers of messages
    fit into unsigned short.  [isComm] is in Partition.v. *)
From Verif Require Import Util Partition.

(** ** Communicating elements *)

(** Models tools/edge_v/src/mesh/Communication.cpp:48-80 (getPaElComm): o_first and o_size. *)
Definition getPaElComm (nElFas nEls : nat) (elFaEl : list (option nat)) (elPa first size : list nat) : res (list nat * list nat) :=
  '(_, first, size) <- for_ 0 nEls (fun el s =>
    let '(regPa, first, size) := s in
    commEl <- isComm nElFas elFaEl elPa el ;;
    pa <- rd elPa el ;;
    if (match regPa with None => true | Some r => negb (r =? pa) end) && commEl then
      _ <- check (match regPa with None => true | Some r => pa =? r + 1 end) ;;
      first <- wr first pa el ;;
      size <- wr size pa 1 ;; Ok (Some pa, first, size)
    else if (match regPa with None => false | Some r => r =? pa end) && commEl then
      n <- rd size pa ;; size <- wr size pa (n + 1) ;; Ok (regPa, first, size)
    else Ok s) (None, first, size) ;;
  Ok (first, size).

(** std::pair comparison and insertion into a std::set of pairs. *)
Definition pairLt (a b : nat * nat) : bool := (fst a <? fst b) || ((fst a =? fst b) && (snd a <? snd b)).
Fixpoint insertPair (a : nat * nat) (l : list (nat * nat)) : list (nat * nat) :=
  match l with
  | [] => [a]
  | b :: l' => if pairLt a b then a :: l else if pairLt b a then b :: insertPair a l' else l
  end.

(** Models tools/edge_v/src/mesh/Communication.cpp:82-123 (getPaTgPairs) for an initially empty o_pairs. *)
Definition getPaTgPairs (nElFas first size : nat) (elFaEl : list (option nat)) (elTg elPa : list nat) : res (list (nat * nat)) :=
  _ <- check (0 <? size) ;;
  pa <- rd elPa first ;;
  tg <- rd elTg first ;;
  for_ first (first + size) (fun el pairs =>
    p <- rd elPa el ;; _ <- check (p =? pa) ;;
    t <- rd elTg el ;; _ <- check (t =? tg) ;;
    for_ 0 nElFas (fun fa pairs =>
      ad <- rd elFaEl (el * nElFas + fa) ;;
      match ad with
      | None => Ok pairs
      | Some ad => adPa <- rd elPa ad ;; adTg <- rd elTg ad ;;
                   Ok (if pa =? adPa then pairs else insertPair (adPa, adTg) pairs)
      end) pairs) [].

(** ** Messages *)

(** Models tools/edge_v/src/mesh/Communication.h, struct Message. *)
Record message := mkMessage { msPa : nat; msTg : nat; msEl : list nat; msFa : list nat; msElAd : list nat; msFaAd : list nat }.

(** Last face of the adjacent element which is adjacent to [el].  Models Communication.cpp:171-176. *)
Definition findFaAd (nElFas : nat) (elFaEl : list (option nat)) (el elAd : nat) : res (option nat) :=
  for_ 0 nElFas (fun fa faAd =>
    ad <- rd elFaEl (elAd * nElFas + fa) ;;
    Ok (match ad with Some x => if x =? el then Some fa else faAd | None => faAd end)) None.

(** Models the lambda l_insert of tools/edge_v/src/mesh/Communication.cpp:158-185. *)
Fixpoint insertMsg (nElFas : nat) (elFaEl : list (option nat)) (send : list message) (el fa pa tg : nat) : res (list message) :=
  match send with
  | [] => Ok []
  | m :: send' =>
      if (msPa m =? pa) && (msTg m =? tg) then
        o <- rd elFaEl (el * nElFas + fa) ;;
        elAd <- (match o with Some x => Ok x | None => Er Eub end) ;;
        faAd <- findFaAd nElFas elFaEl el elAd ;;
        match faAd with
        | None => Er Echeck
        | Some faAd => Ok (mkMessage (msPa m) (msTg m) (msEl m ++ [el]) (msFa m ++ [fa]) (msElAd m ++ [elAd]) (msFaAd m ++ [faAd]) :: send')
        end
      else _ <- check (negb (length send' =? 0)) ;;
           send' <- insertMsg nElFas elFaEl send' el fa pa tg ;; Ok (m :: send')
  end.

(** Models tools/edge_v/src/mesh/Communication.cpp:125-207 (getMsgsSend). *)
Definition getMsgsSend (nElFas first size : nat) (elFaEl : list (option nat)) (elPa elTg : list nat) : res (list message) :=
  pairs <- getPaTgPairs nElFas first size elFaEl elTg elPa ;;
  let send := map (fun p => mkMessage (fst p) (snd p) [] [] [] []) pairs in
  paReg <- rd elPa first ;;
  for_ first (first + size) (fun el send =>
    for_ 0 nElFas (fun fa send =>
      ad <- rd elFaEl (el * nElFas + fa) ;;
      match ad with
      | None => Ok send
      | Some ad => paAd <- rd elPa ad ;; tgAd <- rd elTg ad ;;
                   if paAd =? paReg then Ok send else insertMsg nElFas elFaEl send el fa paAd tgAd
      end) send) send.

(** ** Structure *)

(** Models tools/edge_v/src/mesh/Communication.h, struct TimeRegion; a Partition is its list of time regions. *)
Record timeRegion := mkTr { trTg : nat; trSend : list message; trRecv : list message }.
Definition partition := list timeRegion.

(** Increases the last number; UB for an empty vector. *)
Fixpoint incLast (l : list nat) : res (list nat) :=
  match l with
  | [] => Er Eub
  | [n] => Ok [n + 1]
  | n :: l => l <- incLast l ;; Ok (n :: l)
  end.

(** Models the lambda l_getTgs of tools/edge_v/src/mesh/Communication.cpp:233-256: o_tgs, o_firstTg, o_sizeTg. *)
Definition getTgs (elTg : list nat) (first size : nat) : res (list nat * list nat * list nat) :=
  if size =? 0 then Ok ([], [], []) else
  '(_, r) <- for_ first (first + size) (fun el s =>
    let '(tg, (tgs, firstTg, sizeTg)) := s in
    elT <- rd elTg el ;;
    if (match tg with Some t => elT =? t | None => false end) then sizeTg <- incLast sizeTg ;; Ok (tg, (tgs, firstTg, sizeTg))
    else Ok (Some elT, (tgs ++ [elT], firstTg ++ [el], sizeTg ++ [1]))) (None, ([], [], [])) ;;
  Ok r.

(** Models the send parts of getStruct, tools/edge_v/src/mesh/Communication.cpp:263-288.
    Simplification: the results of the loop, one entry per iteration, are appended instead of written to a resized vector. *)
Definition sendParts (nElFas nPas : nat) (elFaEl : list (option nat)) (elPa elTg firstComm sizeComm : list nat) : res (list partition) :=
  for_ 0 nPas (fun pa st =>
    f <- rd firstComm pa ;; n <- rd sizeComm pa ;;
    '(tgs, firstTg, sizeTg) <- getTgs elTg f n ;;
    p <- for_ 0 (length tgs) (fun i p =>
      tg <- rd tgs i ;; f <- rd firstTg i ;; n <- rd sizeTg i ;;
      send <- getMsgsSend nElFas f n elFaEl elPa elTg ;; Ok (p ++ [mkTr tg send []])) [] ;;
    Ok (st ++ [p])) [].

Definition emptyMsg : message := mkMessage 0 0 [] [] [] [].

(** Models tools/edge_v/src/mesh/Communication.cpp:305-329: the receive message mirroring the matching send message among the
    messages [remote] of the remote partition's time region; the message stays as initialized for no messages. *)
Fixpoint mirrorIn (remote : list message) (pa tg : nat) (m : message) : res message :=
  match remote with
  | [] => Ok emptyMsg
  | r :: remote' =>
      if (msTg r =? tg) && (msPa r =? pa) then
        _ <- check (length (msEl m) =? length (msEl r)) ;;
        _ <- check (length (msFa m) =? length (msFa r)) ;;
        Ok (mkMessage (msPa m) (msTg m) (msElAd r) (msFaAd r) (msEl r) (msFa r))
      else _ <- check (negb (length remote' =? 0)) ;; mirrorIn remote' pa tg m
  end.

(** Models tools/edge_v/src/mesh/Communication.cpp:302-334: first time region of the remote partition with the message's group. *)
Fixpoint mirrorTr (trs : partition) (pa tg : nat) (m : message) : res message :=
  match trs with
  | [] => Ok emptyMsg
  | tr :: trs => if trTg tr =? msTg m then mirrorIn (trSend tr) pa tg m else mirrorTr trs pa tg m
  end.

Fixpoint mapM {A B} (f : A -> res B) (l : list A) : res (list B) :=
  match l with
  | [] => Ok []
  | a :: l => b <- f a ;; r <- mapM f l ;; Ok (b :: r)
  end.
Fixpoint mapMi {A B} (f : nat -> A -> res B) (i : nat) (l : list A) : res (list B) :=
  match l with
  | [] => Ok []
  | a :: l => b <- f i a ;; r <- mapMi f (S i) l ;; Ok (b :: r)
  end.

(** Models the receive parts of getStruct, tools/edge_v/src/mesh/Communication.cpp:290-337.
    Simplification: the loops read the send messages and write the receive messages only, which is a map. *)
Definition recvParts (st : list partition) : res (list partition) :=
  mapMi (fun pa p => mapM (fun tr =>
    recv <- mapM (fun m => trs <- rd st (msPa m) ;; mirrorTr trs pa (trTg tr) m) (trSend tr) ;;
    Ok (mkTr (trTg tr) (trSend tr) recv)) p) 0 st.

(** Models tools/edge_v/src/mesh/Communication.cpp:209-340 (getStruct). *)
Definition getStruct (nElFas nEls : nat) (elFaEl : list (option nat)) (elPa elTg : list nat) : res (list partition) :=
  _ <- (if nEls =? 0 then Er Eub else Ok tt) ;;
  paLast <- rd elPa (nEls - 1) ;;
  let nPas := paLast + 1 in
  '(firstComm, sizeComm) <- getPaElComm nElFas nEls elFaEl elPa (repeat 0 nPas) (repeat 0 nPas) ;;
  st <- sendParts nElFas nPas elFaEl elPa elTg firstComm sizeComm ;;
  recvParts st.

(** ** Flat arrays *)

(** Models tools/edge_v/src/mesh/Communication.cpp:342-352 (setChOff). *)
Definition setChOff (st : list partition) (chOff : list nat) : res (list nat) :=
  chOff <- wr chOff 0 0 ;;
  for_ 0 (length st) (fun pa chOff =>
    p <- rd st pa ;;
    o <- rd chOff pa ;; chOff <- wr chOff (pa + 1) o ;;
    for_ 0 (length p) (fun i chOff => tr <- rd p i ;; o <- rd chOff (pa + 1) ;; wr chOff (pa + 1) (o + length (trSend tr))) chOff) chOff.

(** Models tools/edge_v/src/mesh/Communication.cpp:354-372 (setChs). *)
Definition setChs (st : list partition) (chOff chs : list nat) : res (list nat) :=
  for_ 0 (length st) (fun pa chs =>
    p <- rd st pa ;;
    o <- rd chOff pa ;; o1 <- rd chOff (pa + 1) ;;
    chs <- wr chs (o * 4 + pa) (o1 - o) ;;
    '(_, chs) <- for_ 0 (length p) (fun i s =>
      tr <- rd p i ;;
      for_ 0 (length (trSend tr)) (fun se s =>
        let '(off, chs) := s in
        m <- rd (trSend tr) se ;;
        chs <- wr chs (off + 0) (trTg tr) ;;
        chs <- wr chs (off + 1) (msPa m) ;;
        chs <- wr chs (off + 2) (msTg m) ;;
        chs <- wr chs (off + 3) (length (msEl m)) ;;
        Ok (off + 4, chs)) s) (o * 4 + pa + 1, chs) ;;
    Ok chs) chs.

(** Models tools/edge_v/src/mesh/Communication.cpp:374-407 (nElsInSe). *)
Definition nElsInSe (nElFas nPas nTgs nEls : nat) (elFaEl : list (option nat)) (elPa elTg nIn nSe : list nat) : res (list nat * list nat) :=
  '(nIn, nSe) <- for_ 0 nPas (fun pa s => for_ 0 nTgs (fun tg s =>
     let '(nIn, nSe) := s in
     nIn <- wr nIn (pa * nTgs + tg) 0 ;; nSe <- wr nSe (pa * nTgs + tg) 0 ;; Ok (nIn, nSe)) s) (nIn, nSe) ;;
  for_ 0 nEls (fun el s =>
    let '(nIn, nSe) := s in
    commEl <- isComm nElFas elFaEl elPa el ;;
    pa <- rd elPa el ;; tg <- rd elTg el ;;
    if negb commEl then n <- rd nIn (pa * nTgs + tg) ;; nIn <- wr nIn (pa * nTgs + tg) (n + 1) ;; Ok (nIn, nSe)
    else n <- rd nSe (pa * nTgs + tg) ;; nSe <- wr nSe (pa * nTgs + tg) (n + 1) ;; Ok (nIn, nSe)) (nIn, nSe).

(** Models tools/edge_v/src/mesh/Communication.cpp:409-422 (setSeReElFaOff). *)
Definition setSeReElFaOff (st : list partition) (off : list nat) : res (list nat) :=
  off <- wr off 0 0 ;;
  for_ 0 (length st) (fun pa off =>
    p <- rd st pa ;;
    o <- rd off pa ;; off <- wr off (pa + 1) o ;;
    for_ 0 (length p) (fun i off =>
      tr <- rd p i ;;
      for_ 0 (length (trSend tr)) (fun ms off => m <- rd (trSend tr) ms ;; o <- rd off (pa + 1) ;; wr off (pa + 1) (o + length (msEl m))) off) off) off.

Record seRe := mkSeRe { sendFa : list nat; sendEl : list nat; recvFa : list nat; recvEl : list nat }.

(** Models tools/edge_v/src/mesh/Communication.cpp:424-448 (setSeReElFa); the differences are checked to be non-negative here, they
    wrap around in the code. *)
Definition sub_ (a b : nat) : res nat := if b <=? a then Ok (a - b) else Er Eub.
Definition setSeReElFa (nPaEls : list nat) (st : list partition) (o : seRe) : res seRe :=
  '(_, _, o) <- for_ 0 (length st) (fun pa s =>
    p <- rd st pa ;;
    let '(id, elFirst, o) := s in
    '(id, o) <- for_ 0 (length p) (fun i s =>
      tr <- rd p i ;;
      for_ 0 (length (trSend tr)) (fun ms s =>
        se <- rd (trSend tr) ms ;;
        for_ 0 (length (msFa se)) (fun en s =>
          let '(id, o) := s in
          f <- rd (msFa se) en ;; sF <- wr (sendFa o) id f ;;
          e <- rd (msEl se) en ;; e <- sub_ e elFirst ;; sE <- wr (sendEl o) id e ;;
          re <- rd (trRecv tr) ms ;;
          f <- rd (msFa re) en ;; rF <- wr (recvFa o) id f ;;
          e <- rd (msEl re) en ;; e <- sub_ e elFirst ;; rE <- wr (recvEl o) id e ;;
          Ok (id + 1, mkSeRe sF sE rF rE)) s) s) (id, o) ;;
    n <- rd nPaEls pa ;; Ok (id, elFirst + n, o)) (0, 0, o) ;;
  Ok o.

(** ** Constructor *)

Record commData := mkComm { cStruct : list partition; cChOff : list nat; cChs : list nat; cElsIn : list nat; cElsSe : list nat;
                            cOff : list nat; cSeRe : seRe }.

(** Models tools/edge_v/src/mesh/Communication.cpp:462-477: partitions of the elements. *)
Definition elPas (nEls nPas : nat) (nPaEls elPa : list nat) : res (list nat) :=
  '(elPa, _) <- for_ 0 nPas (fun pa s =>
    let '(elPa, paFirst) := s in
    n <- rd nPaEls pa ;;
    _ <- check (paFirst + n <=? nEls) ;;
    elPa <- for_ paFirst (paFirst + n) (fun el elPa => wr elPa el pa) elPa ;;
    Ok (elPa, paFirst + n)) (elPa, 0) ;;
  Ok elPa.

(** Models tools/edge_v/src/mesh/Communication.cpp:450-524 (the constructor); [garbage] is the content of allocated memory. *)
Definition communication (garbage : nat -> nat) (nTgs nElFas nEls : nat) (elFaEl : list (option nat)) (nPas : nat) (nPaEls elTg : list nat) : res commData :=
  let new n := map garbage (seq 0 n) in
  _ <- check (0 <? nPas) ;;
  elPa <- elPas nEls nPas nPaEls (new nEls) ;;
  st <- getStruct nElFas nEls elFaEl elPa elTg ;;
  chOff <- setChOff st (new (nPas + 1)) ;;
  n <- rd chOff nPas ;;
  chs <- setChs st chOff (new (nPas + n * 4)) ;;
  '(nIn, nSe) <- nElsInSe nElFas nPas nTgs nEls elFaEl elPa elTg (new (nPas * nTgs)) (new (nPas * nTgs)) ;;
  off <- setSeReElFaOff st (new (nPas + 1)) ;;
  n <- rd off nPas ;;
  o <- setSeReElFa nPaEls st (mkSeRe (new n) (new n) (new n) (new n)) ;;
  Ok (mkComm st chOff chs nIn nSe off o).

(** Models tools/edge_v/src/mesh/Communication.cpp:538-540 (getStruct of a partition): the memory behind the pointer. *)
Definition getStructPa (c : commData) (pa : nat) : res (list nat) := o <- rd (cChOff c) pa ;; Ok (skipn (o * 4 + pa) (cChs c)).
