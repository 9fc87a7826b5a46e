(** Partitions of the preprocessor: model of edge_v::mesh::Partition.

    Integers are [nat]; std::numeric_limits< t_idx >::max() as id of an element is [None].  METIS (kWay) is not modelled: the
    partitions of the elements are an arbitrary input. *)
From Verif Require Import Util.

(** Models tools/edge_v/src/mesh/Partition.cpp:71-88 (nPaEls). *)
Definition nPaEls (nEls : nat) (elPa nPa : list nat) : res (list nat) :=
  m <- for_ 0 nEls (fun el m => pa <- rd elPa el ;; Ok (Nat.max m pa)) 0 ;;
  nPa <- for_ 0 (m + 1) (fun pa nPa => wr nPa pa 0) nPa ;;
  for_ 0 nEls (fun el nPa => pa <- rd elPa el ;; c <- rd nPa pa ;; wr nPa pa (c + 1)) nPa.

(** Does a face of the element belong to an element of another partition?  Models the lambda l_send of
    tools/edge_v/src/mesh/Partition.cpp:107-123, and tools/edge_v/src/mesh/Communication.cpp:27-46 (isComm), which is the same
    code. *)
Definition isComm (nElFas : nat) (elFaEl : list (option nat)) (elPa : list nat) (el : nat) : res bool :=
  pa <- rd elPa el ;;
  for_ 0 nElFas (fun fa b =>
    ad <- rd elFaEl (el * nElFas + fa) ;;
    match ad with
    | None => Ok b
    | Some ad => paAd <- rd elPa ad ;; Ok (if pa =? paAd then b else true)
    end) false.

(** Models tools/edge_v/src/mesh/Partition.cpp:91-140 (getElPr); [elTg] is [None] for a null pointer. *)
Definition getElPr (nElFas nEls : nat) (elFaEl : list (option nat)) (elPa : list nat) (elTg : option (list nat)) (elPr : list nat) : res (list nat) :=
  nTgs <- (match elTg with
           | None => Ok 0
           | Some elTg => for_ 0 nEls (fun el m => tg <- rd elTg el ;; Ok (Nat.max m tg)) 0
           end) ;;
  for_ 0 nEls (fun el elPr =>
    pa <- rd elPa el ;;
    elPr <- wr elPr el (pa * 2 * (nTgs + 1)) ;;
    b <- isComm nElFas elFaEl elPa el ;;
    elPr <- (if (b : bool) then p <- rd elPr el ;; wr elPr el (p + (nTgs + 1)) else Ok elPr) ;;
    match elTg with
    | None => Ok elPr
    | Some elTg => tg <- rd elTg el ;; p <- rd elPr el ;; wr elPr el (p + tg)
    end) elPr.

(** std::sort of numbers. *)
Fixpoint insertNat (a : nat) (l : list nat) : list nat :=
  match l with
  | [] => [a]
  | b :: l => if a <=? b then a :: b :: l else b :: insertNat a l
  end.
Definition sortNat (l : list nat) : list nat := fold_right insertNat [] l.

(** std::sort( a+lo, a+hi ). *)
Definition sortRange (a : list nat) (lo hi : nat) : res (list nat) :=
  if (lo <=? hi) && (hi <=? length a) then Ok (firstn lo a ++ sortNat (firstn (hi - lo) (skipn lo a)) ++ skipn hi a) else Er Eub.

(** Models tools/edge_v/src/mesh/Partition.h:106-133 (getDualGraph): o_xadj and o_adjncy. *)
Definition getDualGraph (nElFas nEls : nat) (elFaEl : list (option nat)) (xadj adjncy : list nat) : res (list nat * list nat) :=
  xadj <- wr xadj 0 0 ;;
  '(xadj, adjncy, _) <- for_ 0 nEls (fun el s =>
    let '(xadj, adjncy, adId) := s in
    x <- rd xadj el ;; xadj <- wr xadj (el + 1) x ;;
    '(xadj, adjncy, adId) <- for_ 0 nElFas (fun fa s =>
      let '(xadj, adjncy, adId) := s in
      ad <- rd elFaEl (el * nElFas + fa) ;;
      match ad with
      | None => Ok s
      | Some ad => adjncy <- wr adjncy adId ad ;; x <- rd xadj (el + 1) ;; xadj <- wr xadj (el + 1) (x + 1) ;; Ok (xadj, adjncy, adId + 1)
      end) (xadj, adjncy, adId) ;;
    lo <- rd xadj el ;; hi <- rd xadj (el + 1) ;;
    adjncy <- sortRange adjncy lo hi ;; Ok (xadj, adjncy, adId)) (xadj, adjncy, 0) ;;
  Ok (xadj, adjncy).

(** Models tools/edge_v/src/mesh/Partition.h:150-197 (getWeights): o_vwgt and o_adjwgt. *)
Definition getWeights (nElFas nEls nAdjwgt : nat) (elFaEl : list (option nat)) (elTg : list nat) (vwgt adjwgt : list nat) : res (list nat * list nat) :=
  '(tgMax, vwgt) <- for_ 0 nEls (fun el s =>
     let '(m, vwgt) := s in tg <- rd elTg el ;; vwgt <- wr vwgt el 1 ;; Ok (Nat.max m tg, vwgt)) (0, vwgt) ;;
  adjwgt <- for_ 0 nAdjwgt (fun ad adjwgt => wr adjwgt ad 1) adjwgt ;;
  '(vwgt, adjwgt, _) <- for_ 0 nEls (fun el s =>
     let '(vwgt, adjwgt, adId) := s in
     tg <- rd elTg el ;;
     vwgt <- for_ tg tgMax (fun _ vwgt => w <- rd vwgt el ;; wr vwgt el (w * 2)) vwgt ;;
     '(adjwgt, adId) <- for_ 0 nElFas (fun fa s =>
       let '(adjwgt, adId) := s in
       ad <- rd elFaEl (el * nElFas + fa) ;;
       match ad with
       | None => Ok s
       | Some ad => tgAd <- rd elTg ad ;;
                    adjwgt <- for_ (Nat.min tg tgAd) tgMax (fun _ adjwgt => w <- rd adjwgt adId ;; wr adjwgt adId (w * 2)) adjwgt ;;
                    Ok (adjwgt, adId + 1)
       end) (adjwgt, adId) ;;
     Ok (vwgt, adjwgt, adId)) (vwgt, adjwgt, 0) ;;
  Ok (vwgt, adjwgt).
