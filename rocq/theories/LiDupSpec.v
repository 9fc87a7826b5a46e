(** Duplicates of limited elements. *)
From Coq Require Import List Arith Sorted.
Import ListNotations.

(** element [el] of limited element [li] *)
Definition elemOf (liLp lpEl : list nat) (li el : nat) : Prop := exists lp, nth_error liLp li = Some lp /\ nth_error lpEl lp = Some el.
(** the dominant copy [d] of element [el]: the one which the mesh's element refers to *)
Definition dominant (daMe meDa : list nat) (el d : nat) : Prop := exists me, nth_error daMe el = Some me /\ nth_error meDa me = Some d.

Section Spec.
  Variable (lo hi : nat) (liLp lpEl daMe meDa : list nat).
  (** limited element [l1] is a duplicate of the limited element [l2], both among the elements [lo], ..., [hi] - 1 to be sent *)
  Definition dupOf (l1 l2 : nat) : Prop := (lo <= l1 < hi) /\ (lo <= l2 < hi) /\
    exists e d, elemOf liLp lpEl l1 e /\ dominant daMe meDa e d /\ d <> e /\ elemOf liLp lpEl l2 d.
  (** ascending list of all duplicates of [l2] *)
  Definition dupsOf (l2 : nat) (ds : list nat) : Prop := StronglySorted lt ds /\ forall l1, In l1 ds <-> dupOf l1 l2.
  (** more than [n] duplicates of a limited element *)
  Definition crowded (n : nat) : Prop := exists l2 ds, NoDup ds /\ n < length ds /\ forall l1, In l1 ds -> dupOf l1 l2.
  (** elements to be sent have a dense element and this one a dominant copy *)
  Definition mapped : Prop := forall l, lo <= l < hi -> exists e d, elemOf liLp lpEl l e /\ dominant daMe meDa e d.
End Spec.

(** [n] rows of [k] entries *)
Definition rowsOf (n k : nat) (o : list (list nat)) : Prop := length o = n /\ forall r, In r o -> length r = k.
