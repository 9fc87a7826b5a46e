(** Links from limited elements to their duplicates: src/sc/Init.hpp.

    Ids are natural numbers (no overflow), [none] is std::numeric_limits< TL_T_LID >::max(). *)
From Verif Require Import Util.
From Coq Require Import List Arith Bool.

Section LiDup.
  Variable (none nFa : nat).

  (** Init.hpp 485-487: all links are invalid *)
  Definition clear (nEnts : nat) (o : list (list nat)) : res (list (list nat)) :=
    for_ 0 nEnts (fun li o => for_ 0 nFa (fun fa o => row <- rd o li ;; row <- wr row fa none ;; wr o li row) o) o.

  (** Init.hpp 506-512: the first free entry of [l2] is set to [l1] *)
  Definition place (l1 l2 : nat) (o : list (list nat)) : res (list (list nat)) :=
    forb 0 nFa (fun fa o =>
      row <- rd o l2 ;; x <- rd row fa ;;
      if x =? none then row <- wr row fa l1 ;; o <- wr o l2 row ;; Ok (o, true)
      else _ <- check (negb (fa =? nFa - 1)) ;; Ok (o, false)) o.

  (** Init.hpp 492-517: [first], [size] are l_seFirst and l_seSize *)
  Definition links (first size : nat) (liLp lpEl daMe meDa : list nat) (o : list (list nat)) : res (list (list nat)) :=
    for_ first (first + size) (fun l1 o =>
      lp <- rd liLp l1 ;; el <- rd lpEl lp ;; me <- rd daMe el ;; elDo <- rd meDa me ;;
      if negb (elDo =? el) then
        for_ first (first + size) (fun l2 o =>
          lpAd <- rd liLp l2 ;; elAd <- rd lpEl lpAd ;;
          if elAd =? elDo then place l1 l2 o else Ok o) o
      else Ok o) o.

  (** Init.hpp 478-518 (liDoLiDu): [iFirst], [iSize] and [own] are inner.first, inner.size and nEntsOwn of the first time group, inner.size does not exceed nEntsOwn *)
  Definition liDoLiDu (nEnts iFirst iSize own : nat) (liLp lpEl daMe meDa : list nat) (o : list (list nat)) : res (list (list nat)) :=
    o <- clear nEnts o ;; links (iFirst + iSize) (own - iSize) liLp lpEl daMe meDa o.
End LiDup.
