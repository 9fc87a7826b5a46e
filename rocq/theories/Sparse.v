(** Sparse entity types: model of edge::data::SparseEntities.

    An entity's characteristics are reduced to its member [spType], a bit field ([N]).
    Ids are [nat]; the invalid id std::numeric_limits< T >::max() is [None], so tables which may
    hold an invalid id have type [list (option nat)] (simplification: real ids never reach max()). *)
From Coq Require Import Sorted.
From Verif Require Import Util.

(** * Model *)

(** the test (chars.spType & spType) == spType.  Models src/data/SparseEntities.hpp:90 (and 125, 178, 224, ...) *)
Definition has (c t : N) : bool := N.eqb (N.land c t) t.

(** Models src/data/SparseEntities.hpp:84-93 (nSp). *)
Definition nSp (nEn : nat) (t : N) (chars : list N) : res nat :=
  for_ 0 nEn (fun en l_nSp =>
    c <- rd chars en ;;
    Ok (if has c t then S l_nSp else l_nSp)) 0.

(** One of the two loops of denseToSparse: per time group, count in the group's consecutive range.
    Models src/data/SparseEntities.hpp:121-128 (inner) and 130-137 (send), which are textually identical
    up to the size/output arrays. *)
Definition denseToSparse_loop (nTgs : nat) (t : N) (chars : list N) (nElsDe : list nat)
    (st : nat * list nat) : res (nat * list nat) :=
  for_ 0 nTgs (fun tg '(first, out) =>
    out <- wr out tg 0 ;;
    n <- rd nElsDe tg ;;
    out <- for_ first (first + n) (fun el out =>
             c <- rd chars el ;;
             v <- rd out tg ;;
             if has c t then wr out tg (S v) else Ok out) out ;;
    Ok (first + n, out)) st.

(** Models src/data/SparseEntities.hpp:112-138 (denseToSparse). *)
Definition denseToSparse (nTgs : nat) (t : N) (chars : list N) (nElsInDe nElsSeDe : list nat)
    (o_in o_se : list nat) : res (list nat * list nat) :=
  '(first, o_in) <- denseToSparse_loop nTgs t chars nElsInDe (0, o_in) ;;
  '(first, o_se) <- denseToSparse_loop nTgs t chars nElsSeDe (first, o_se) ;;
  Ok (o_in, o_se).

(** Models src/data/SparseEntities.hpp:168-196 (subRgnsSpId). *)
Definition subRgnsSpId (rgnFirst nSub : nat) (sizes : list nat) (t : N) (chars : list N)
    (o_first o_size : list nat) : res (list nat * list nat) :=
  first <- for_ 0 rgnFirst (fun en first =>
             c <- rd chars en ;; Ok (if has c t then S first else first)) 0 ;;
  '(en, first, o_first, o_size) <-
    for_ 0 nSub (fun sr '(en, first, o_first, o_size) =>
      o_first <- wr o_first sr first ;;
      sz <- rd sizes sr ;;
      o_size <- wr o_size sr 0 ;;
      '(first, o_size) <- for_ en (en + sz) (fun e '(first, o_size) =>
           c <- rd chars e ;;
           if has c t
           then v <- rd o_size sr ;; o_size <- wr o_size sr (S v) ;; Ok (S first, o_size)
           else Ok (first, o_size)) (first, o_size) ;;
      Ok (en + sz, first, o_first, o_size)) (rgnFirst, first, o_first, o_size) ;;
  Ok (o_first, o_size).

(** Models src/data/SparseEntities.hpp:218-228 (inherit). *)
Definition inherit (nEn : nat) (tIn tOut : N) (chars : list N) : res (list N) :=
  for_ 0 nEn (fun en chars =>
    c <- rd chars en ;;
    if has c tIn then wr chars en (N.lor c tOut) else Ok chars) chars.

(** Models src/data/SparseEntities.hpp:263-289 (propAdj, flat).  The local l_nEn1 is never used by the code
    and is omitted. *)
Definition propAdjFlat (nEn0 nPer : nat) (en0En1 : list (option nat)) (tIn tOut : N)
    (chars0 chars1 : list N) : res (list N) :=
  for_ 0 nEn0 (fun en chars1 =>
    c <- rd chars0 en ;;
    if has c tIn then
      for_ 0 nPer (fun ae chars1 =>
        a <- rd en0En1 (en * nPer + ae) ;;
        match a with
        | None => Ok chars1
        | Some id => c1 <- rd chars1 id ;; wr chars1 id (N.lor c1 tOut)
        end) chars1
    else Ok chars1) chars1.

(** Models src/data/SparseEntities.hpp:312-337 (propAdj, variable number of adjacent entities).
    The array of pointers i_en0En1[0..nEn0] into raw storage is modelled by the raw storage [raw]
    and the offsets [off] of the pointers from its beginning. *)
Definition propAdjPtr (nEn0 : nat) (raw : list (option nat)) (off : list nat) (tIn tOut : N)
    (chars0 chars1 : list N) : res (list N) :=
  for_ 0 nEn0 (fun en chars1 =>
    c <- rd chars0 en ;;
    if has c tIn then
      p0 <- rd off en ;;
      p1 <- rd off (S en) ;;
      for_ 0 (p1 - p0) (fun ae chars1 =>
        a <- rd raw (p0 + ae) ;;
        match a with
        | None => Ok chars1
        | Some id => c1 <- rd chars1 id ;; wr chars1 id (N.lor c1 tOut)
        end) chars1
    else Ok chars1) chars1.

(** Models src/data/SparseEntities.hpp:369-383 (linkSpDe). *)
Definition linkSpDe (nDe : nat) (t : N) (chars : list N) (o_spDe : list nat) : res (list nat) :=
  '(sp, o) <- for_ 0 nDe (fun de '(sp, o) =>
    c <- rd chars de ;;
    if has c t then o <- wr o sp de ;; Ok (S sp, o) else Ok (sp, o)) (0, o_spDe) ;;
  Ok o.

(** Models src/data/SparseEntities.hpp:416-439 (linkSpSp). *)
Definition linkSpSp (nDe : nat) (t0 t1 : N) (chars : list N) (o : list (option nat))
    : res (list (option nat)) :=
  '(sp0, sp1, o) <- for_ 0 nDe (fun de '(sp0, sp1, o) =>
    c <- rd chars de ;;
    '(sp0, o) <-
      (if has c t0 then
         o <- wr o sp0 (if has c t1 then Some sp1 else None) ;; Ok (S sp0, o)
       else Ok (sp0, o)) ;;
    Ok (sp0, if has c t1 then S sp1 else sp1, o)) (0, 0, o) ;;
  Ok o.

(** Highest adjacent id plus one.  Models src/data/SparseEntities.hpp:498-510 and 629-642 (flat storage). *)
Definition nAdjEnFlat (nEn nAdj : nat) (enEn : list (option nat)) : res nat :=
  m <- for_ 0 nEn (fun de m =>
         for_ 0 nAdj (fun ae m =>
           a <- rd enEn (de * nAdj + ae) ;;
           match a with None => Ok m | Some id => Ok (Nat.max m id) end) m) 0 ;;
  Ok (S m).

(** Lookup dense id -> sparse id of the adjacent entities.
    Models src/data/SparseEntities.hpp:512-522, 644-654 and 807-818. *)
Definition adjDeToSp (nAdjEn : nat) (t : N) (chars : list N) : res (list (option nat)) :=
  '(spId, l) <- for_ 0 nAdjEn (fun de '(spId, l) =>
    c <- rd chars de ;;
    if has c t then l <- wr l de (Some spId) ;; Ok (S spId, l)
    else l <- wr l de None ;; Ok (spId, l)) (0, repeat (Some 0) nAdjEn) ;;
  Ok l.

(** Models src/data/SparseEntities.hpp:487-552 (linkSpAdjSst). *)
Definition linkSpAdjSst (nEn nAdj : nat) (enEn : list (option nat)) (t : N) (charsAdj : list N)
    (o_spLink : list (option nat)) : res (list (option nat)) :=
  if nEn =? 0 then Ok o_spLink else
  _ <- check (0 <? nAdj) ;;
  nAdjEn <- nAdjEnFlat nEn nAdj enEn ;;
  lut <- adjDeToSp nAdjEn t charsAdj ;;
  '(spId, o) <- for_ 0 nEn (fun de '(spId, o) =>
    l_sp <- for_ 0 nAdj (fun ae l_sp =>
              a <- rd enEn (de * nAdj + ae) ;;
              match a with
              | None => Ok l_sp
              | Some id => c <- rd charsAdj id ;; Ok (if has c t then true else l_sp)
              end) false ;;
    if (l_sp : bool) then
      o <- for_ 0 nAdj (fun ae o =>
             a <- rd enEn (de * nAdj + ae) ;;
             match a with
             | None => Ok o
             | Some id =>
                 c <- rd charsAdj id ;;
                 if has c t then s <- rd lut id ;; wr o (spId * nAdj + ae) s
                 else wr o (spId * nAdj + ae) None
             end) o ;;
      Ok (S spId, o)
    else Ok (spId, o)) (0, o_spLink) ;;
  Ok o.

(** Models src/data/SparseEntities.hpp:616-677 (linkSpAdjDst, flat storage). *)
Definition linkSpAdjDst (nEn nAdj : nat) (enEn : list (option nat)) (tFrom tTo : N)
    (charsFrom charsTo : list N) (o_spLink : list (option nat)) : res (list (option nat)) :=
  if nEn =? 0 then Ok o_spLink else
  _ <- check (0 <? nAdj) ;;
  nAdjEn <- nAdjEnFlat nEn nAdj enEn ;;
  lut <- adjDeToSp nAdjEn tTo charsTo ;;
  '(spId, o) <- for_ 0 nEn (fun de '(spId, o) =>
    c <- rd charsFrom de ;;
    if has c tFrom then
      o <- for_ 0 nAdj (fun ae o =>
             a <- rd enEn (de * nAdj + ae) ;;
             match a with
             | None => wr o (spId * nAdj + ae) None
             | Some id =>
                 c <- rd charsTo id ;;
                 if has c tTo then s <- rd lut id ;; wr o (spId * nAdj + ae) s
                 else wr o (spId * nAdj + ae) None
             end) o ;;
      Ok (S spId, o)
    else Ok (spId, o)) (0, o_spLink) ;;
  Ok o.

(** Models src/data/SparseEntities.hpp:727-757 (nLinkSpAdjDst); storage as in [propAdjPtr].
    Returns (o_nSpLinkRaw, o_nSpLinkPtr). *)
Definition nLinkSpAdjDst (nEn : nat) (raw : list (option nat)) (off : list nat) (tFrom tTo : N)
    (charsFrom charsTo : list N) : res (nat * nat) :=
  for_ 0 nEn (fun de '(nRaw, nPtr) =>
    c <- rd charsFrom de ;;
    if negb (has c tFrom) then Ok (nRaw, nPtr) else
    p0 <- rd off de ;;
    p1 <- rd off (S de) ;;
    nRaw <- for_ 0 (p1 - p0) (fun ae nRaw =>
              a <- rd raw (p0 + ae) ;;
              match a with
              | None => Er Echeck
              | Some id => c <- rd charsTo id ;; Ok (if has c tTo then S nRaw else nRaw)
              end) nRaw ;;
    Ok (nRaw, S nPtr)) (0, 0).

(** Models src/data/SparseEntities.hpp:784-846 (linkSpAdjDst, variable number of adjacent entities).
    Output pointers are offsets into the output raw array.  An invalid adjacent id is used as array
    index by the code without a check: undefined behaviour. *)
Definition linkSpAdjDstPtr (nEn : nat) (raw : list (option nat)) (off : list nat) (tFrom tTo : N)
    (charsFrom charsTo : list N) (o_raw : list (option nat)) (o_ptr : list nat)
    : res (list (option nat) * list nat) :=
  o_ptr <- wr o_ptr 0 0 ;;
  m <- for_ 0 nEn (fun de m =>
         p0 <- rd off de ;;
         p1 <- rd off (S de) ;;
         for_ 0 (p1 - p0) (fun ae m =>
           a <- rd raw (p0 + ae) ;;
           match a with None => Er Eub | Some id => Ok (Nat.max m id) end) m) 0 ;;
  lut <- adjDeToSp (S m) tTo charsTo ;;
  '(spId, l_raw, o_raw, o_ptr) <- for_ 0 nEn (fun de '(spId, l_raw, o_raw, o_ptr) =>
    c <- rd charsFrom de ;;
    if has c tFrom then
      o_ptr <- wr o_ptr spId l_raw ;;
      p0 <- rd off de ;;
      p1 <- rd off (S de) ;;
      '(l_raw, o_raw) <- for_ 0 (p1 - p0) (fun ae '(l_raw, o_raw) =>
         a <- rd raw (p0 + ae) ;;
         match a with
         | None => Er Eub
         | Some id =>
             c <- rd charsTo id ;;
             if has c tTo then s <- rd lut id ;; o_raw <- wr o_raw l_raw s ;; Ok (S l_raw, o_raw)
             else Ok (l_raw, o_raw)
         end) (l_raw, o_raw) ;;
      Ok (S spId, l_raw, o_raw, o_ptr)
    else Ok (spId, l_raw, o_raw, o_ptr)) (0, 0, o_raw, o_ptr) ;;
  o_ptr <- wr o_ptr spId l_raw ;;
  Ok (o_raw, o_ptr).

(** * Specification *)

(** entity [i] carries every bit of the sparse type [t] *)
Definition carries (chars : list N) (t : N) (i : nat) : Prop :=
  exists c, nth_error chars i = Some c /\ forall b, N.testbit t b = true -> N.testbit c b = true.

(** [D] lists, in increasing order, exactly the ids below [n] with property [P].
    Position = sparse id, entry = dense id. *)
Definition lists_ids (P : nat -> Prop) (n : nat) (D : list nat) : Prop :=
  StronglySorted lt D /\ forall d, In d D <-> d < n /\ P d.

(** * Proofs *)

Lemma has_spec c t : has c t = true <-> forall b, N.testbit t b = true -> N.testbit c b = true.
Proof.
  unfold has. rewrite N.eqb_eq. split.
  - intros E b Hb. rewrite <- E in Hb. rewrite N.land_spec in Hb. apply andb_prop in Hb. tauto.
  - intros H. apply N.bits_inj. intros b. rewrite N.land_spec.
    destruct (N.testbit t b) eqn:Et; [ rewrite (H b Et) | ]; auto using andb_false_r.
Qed.

Definition sp (t : N) (chars : list N) (i : nat) : bool :=
  match nth_error chars i with Some c => has c t | None => false end.

Lemma sp_carries t chars i : sp t chars i = true <-> carries chars t i.
Proof.
  unfold sp, carries. destruct (nth_error chars i) as [c|].
  - rewrite has_spec. split; [ intros H; exists c; auto | intros (c' & E & H); inversion E; subst; auto ].
  - split; [ discriminate | intros (c & E & _); discriminate ].
Qed.

Definition ids (P : nat -> bool) (n : nat) : list nat := filter P (seq 0 n).
Definition rank (P : nat -> bool) (n : nat) : nat := length (ids P n).

Lemma ids_S P n : ids P (S n) = ids P n ++ (if P n then [n] else []).
Proof. unfold ids. rewrite seq_snoc, filter_app. simpl. reflexivity. Qed.

Lemma rank_S P n : rank P (S n) = rank P n + (if P n then 1 else 0).
Proof. unfold rank. rewrite ids_S, app_length. destruct (P n); reflexivity. Qed.

Lemma rank_0 P : rank P 0 = 0.
Proof. reflexivity. Qed.

Lemma in_ids P n d : In d (ids P n) <-> d < n /\ P d = true.
Proof. unfold ids. rewrite filter_In, in_seq. intuition lia. Qed.

Lemma ids_sorted P n : StronglySorted lt (ids P n).
Proof.
  induction n as [|n IH]; [ constructor | ]. rewrite ids_S.
  assert (Hlt : forall d, In d (ids P n) -> d < n) by (intros d Hd; apply in_ids in Hd; tauto).
  destruct (P n); [ | now rewrite app_nil_r ].
  clear -IH Hlt. induction (ids P n) as [|x l IHl]; simpl.
  - repeat constructor.
  - inversion IH; subst. constructor.
    + apply IHl; auto. intros d Hd. apply Hlt. right; auto.
    + apply Forall_app. split; auto. constructor; auto. apply Hlt. left; auto.
Qed.

Lemma ids_lists P (Q : nat -> Prop) n : (forall d, P d = true <-> Q d) -> lists_ids Q n (ids P n).
Proof.
  intros H. split; [ apply ids_sorted | ]. intros d. rewrite in_ids, H. tauto.
Qed.

Lemma sorted_unique l1 l2 :
  StronglySorted lt l1 -> StronglySorted lt l2 -> (forall d, In d l1 <-> In d l2) -> l1 = l2.
Proof.
  revert l2; induction l1 as [|a l1 IH]; intros l2 H1 H2 He.
  - destruct l2 as [|b l2]; auto. exfalso. destruct (He b) as [_ H]. apply H. left; auto.
  - destruct l2 as [|b l2]; [ exfalso; destruct (He a) as [H _]; apply H; left; auto | ].
    inversion H1 as [|? ? S1 F1]; inversion H2 as [|? ? S2 F2]; subst.
    rewrite Forall_forall in F1, F2.
    assert (a = b).
    { destruct (He a) as [Ha _]. destruct (He b) as [_ Hb].
      destruct (Ha (or_introl eq_refl)) as [|Ha']; auto.
      destruct (Hb (or_introl eq_refl)) as [|Hb']; auto.
      apply F2 in Ha'. apply F1 in Hb'. lia. }
    subst b. f_equal. apply IH; auto. intros d. split; intros Hd.
    + destruct (He d) as [H _]. destruct (H (or_intror Hd)); auto. apply F1 in Hd. lia.
    + destruct (He d) as [_ H]. destruct (H (or_intror Hd)); auto. apply F2 in Hd. lia.
Qed.

Lemma lists_ids_unique P n D1 D2 : lists_ids P n D1 -> lists_ids P n D2 -> D1 = D2.
Proof.
  intros [S1 H1] [S2 H2]. apply sorted_unique; auto. intros d. rewrite H1, H2. tauto.
Qed.

Lemma lists_ids_eq P (Q : nat -> Prop) n D :
  (forall d, P d = true <-> Q d) -> lists_ids Q n D -> D = ids P n.
Proof. intros H HD. eapply lists_ids_unique; eauto using ids_lists. Qed.

Lemma ids_nth_rank P n d : d < n -> P d = true -> nth_error (ids P n) (rank P d) = Some d.
Proof.
  intros Hd HP. induction n as [|n IH]; [ lia | ]. rewrite ids_S.
  destruct (Nat.eq_dec d n) as [->|Hne].
  - rewrite HP. rewrite nth_error_app2 by (unfold rank; lia).
    replace (rank P n - length (ids P n)) with 0 by (unfold rank; lia). reflexivity.
  - assert (nth_error (ids P n) (rank P d) = Some d) as H by (apply IH; lia).
    rewrite nth_error_app1; auto. apply nth_error_Some. congruence.
Qed.

Lemma sorted_nth_inj l i j x : StronglySorted lt l -> nth_error l i = Some x -> nth_error l j = Some x -> i = j.
Proof.
  revert i j; induction l as [|a l IH]; intros i j HS Hi Hj.
  - destruct i; discriminate.
  - inversion HS as [|? ? S1 F1]; subst. rewrite Forall_forall in F1.
    destruct i as [|i], j as [|j]; simpl in *; auto.
    + inversion Hi; subst. apply nth_error_In in Hj. apply F1 in Hj. lia.
    + inversion Hj; subst. apply nth_error_In in Hi. apply F1 in Hi. lia.
Qed.

Lemma ids_nth_inv P n k d : nth_error (ids P n) k = Some d -> d < n /\ P d = true /\ k = rank P d.
Proof.
  intros H. assert (In d (ids P n)) as Hin by (eapply nth_error_In; eauto).
  apply in_ids in Hin. destruct Hin as [Hd HP]. repeat split; auto.
  eapply sorted_nth_inj; eauto using ids_sorted, ids_nth_rank.
Qed.

Lemma rank_mono P a b : a <= b -> rank P a <= rank P b.
Proof. induction 1; auto. rewrite rank_S. lia. Qed.

Lemma rank_lt P d n : d < n -> P d = true -> rank P d < rank P n.
Proof.
  intros H HP. assert (rank P (S d) <= rank P n) as H1 by (apply rank_mono; lia).
  rewrite rank_S, HP in H1. lia.
Qed.

Lemma sp_rd t chars i d : i < length chars -> sp t chars i = has (nth i chars d) t.
Proof. intros H. unfold sp. now rewrite (nth_error_nth' chars d H). Qed.

(** ** nSp *)
Lemma nSp_ok n t chars : n <= length chars -> nSp n t chars = Ok (rank (sp t chars) n).
Proof.
  intros Hn. unfold nSp.
  loop (fun i c => c = rank (sp t chars) i) as s E H.
  - lia.
  - reflexivity.
  - intros k s Hk ->. rdn 0%N. eexists; split; [ reflexivity | ].
    rewrite rank_S, (sp_rd t chars k 0%N) by lia. destruct (has _ _); lia.
  - now subst.
Qed.

(** ** linkSpDe *)
Lemma linkSpDe_ok n t chars o :
  n <= length chars -> rank (sp t chars) n <= length o ->
  linkSpDe n t chars o = Ok (ids (sp t chars) n ++ skipn (rank (sp t chars) n) o).
Proof.
  intros Hn Ho. unfold linkSpDe.
  loop (fun i (p : nat * list nat) => fst p = rank (sp t chars) i
          /\ snd p = ids (sp t chars) i ++ skipn (rank (sp t chars) i) o) as (k, l) E (Hk & Hl).
  - lia.
  - split; reflexivity.
  - intros i (k, l) Hi (Hk & Hl). simpl in Hk, Hl. subst k l. rdn 0%N.
    rewrite <- (sp_rd t chars i 0%N) by lia. rewrite rank_S, ids_S.
    destruct (sp t chars i) eqn:Esp.
    + assert (rank (sp t chars) i < length o) as Hr.
      { assert (rank (sp t chars) i < rank (sp t chars) n) by (apply rank_lt; auto; lia). lia. }
      rewrite wr_ok by (rewrite app_length, skipn_length; unfold rank in *; lia).
      simpl. eexists; split; [ reflexivity | ]. simpl. split; [ lia | ].
      destruct (skipn_cons _ _ Hr) as (x & _ & ->).
      rewrite upd_app_at by reflexivity. rewrite <- app_assoc. reflexivity.
    + eexists; split; [ reflexivity | ]. simpl. rewrite Nat.add_0_r, app_nil_r. auto.
  - simpl in *. now subst.
Qed.

(** ** linkSpSp *)
Lemma linkSpSp_ok n t0 t1 chars o :
  n <= length chars -> length o = rank (sp t0 chars) n ->
  linkSpSp n t0 t1 chars o
  = Ok (map (fun d => if sp t1 chars d then Some (rank (sp t1 chars) d) else None) (ids (sp t0 chars) n)).
Proof.
  intros Hn Ho. unfold linkSpSp.
  set (f := fun d => if sp t1 chars d then Some (rank (sp t1 chars) d) else None).
  loop (fun i (p : nat * nat * list (option nat)) =>
          fst (fst p) = rank (sp t0 chars) i /\ snd (fst p) = rank (sp t1 chars) i
          /\ snd p = map f (ids (sp t0 chars) i) ++ skipn (rank (sp t0 chars) i) o)
    as ((k0, k1), l) E (Hk0 & Hk1 & Hl).
  - lia.
  - repeat split; reflexivity.
  - intros i ((k0, k1), l) Hi (Hk0 & Hk1 & Hl). simpl in Hk0, Hk1, Hl. subst k0 k1 l. rdn 0%N.
    rewrite <- !(sp_rd _ chars i 0%N) by lia. rewrite !rank_S, ids_S.
    destruct (sp t0 chars i) eqn:Esp.
    + assert (rank (sp t0 chars) i < length o) as Hr.
      { assert (rank (sp t0 chars) i < rank (sp t0 chars) n) by (apply rank_lt; auto; lia). lia. }
      rewrite wr_ok by (rewrite app_length, map_length, skipn_length; unfold rank in *; lia).
      cbn [bind]. eexists; split; [ reflexivity | ]. simpl. split; [ lia | ]. split.
      { destruct (sp t1 chars i); lia. }
      destruct (skipn_cons _ _ Hr) as (x & _ & ->).
      rewrite upd_app_at by (rewrite map_length; reflexivity).
      rewrite map_app, <- app_assoc. reflexivity.
    + cbn [bind]. eexists; split; [ reflexivity | ]. simpl. rewrite Nat.add_0_r, app_nil_r.
      repeat split; auto. destruct (sp t1 chars i); lia.
  - simpl in *. subst. rewrite <- Ho, skipn_all, app_nil_r. reflexivity.
Qed.

(** ** inherit *)
Lemma inherit_ok n tIn tOut chars :
  n <= length chars ->
  exists chars', inherit n tIn tOut chars = Ok chars' /\ length chars' = length chars
    /\ forall i, nth_error chars' i =
         match nth_error chars i with
         | Some c => Some (if (i <? n) && has c tIn then N.lor c tOut else c)
         | None => None
         end.
Proof.
  intros Hn. unfold inherit.
  loop (fun k (l : list N) => length l = length chars /\ forall i, nth_error l i =
         match nth_error chars i with
         | Some c => Some (if (i <? k) && has c tIn then N.lor c tOut else c)
         | None => None
         end) as l E (Hlen & Hl).
  - lia.
  - split; auto. intros i. destruct (nth_error chars i); reflexivity.
  - intros k l Hk (Hlen & Hl).
    pose proof (Hl k) as Hlk. rewrite (nth_error_nth' chars 0%N) in Hlk by lia.
    rewrite Nat.ltb_irrefl in Hlk. simpl in Hlk. rewrite (rd_some _ _ _ Hlk). cbn [bind].
    destruct (has (nth k chars 0%N) tIn) eqn:Eh.
    + rewrite wr_ok by lia. eexists; split; [ reflexivity | ]. split; [ now rewrite length_upd | ].
      intros i. rewrite nth_error_upd, Hl.
      destruct (Nat.eqb_spec k i) as [->|Hne]; simpl.
      * replace (i <? length l) with true by (symmetry; apply Nat.ltb_lt; lia).
        rewrite (nth_error_nth' chars 0%N) by lia. rewrite Eh.
        replace (i <? S i) with true by (symmetry; apply Nat.ltb_lt; lia). reflexivity.
      * destruct (nth_error chars i); auto.
        replace (i <? S k) with (i <? k); auto. destruct (Nat.ltb_spec i k), (Nat.ltb_spec i (S k)); auto; lia.
    + eexists; split; [ reflexivity | ]. split; auto. intros i. rewrite Hl.
      destruct (Nat.eq_dec i k) as [->|Hne].
      * rewrite (nth_error_nth' chars 0%N) by lia. rewrite Eh, !andb_false_r. reflexivity.
      * destruct (nth_error chars i); auto.
        replace (i <? S k) with (i <? k); auto. destruct (Nat.ltb_spec i k), (Nat.ltb_spec i (S k)); auto; lia.
  - exists l. auto.
Qed.

(** ** propAdj *)

(** [l] is [chars1] with [tOut] added to exactly the entities satisfying [hit] *)
Definition marked (chars1 : list N) (tOut : N) (hit : nat -> Prop) (l : list N) : Prop :=
  length l = length chars1 /\
  forall j c, nth_error chars1 j = Some c ->
    (hit j /\ nth_error l j = Some (N.lor c tOut)) \/ (~ hit j /\ nth_error l j = Some c).

Lemma marked_iff chars1 tOut (h1 h2 : nat -> Prop) l :
  (forall j, h1 j <-> h2 j) -> marked chars1 tOut h1 l -> marked chars1 tOut h2 l.
Proof.
  intros H (Hl & Hm). split; auto. intros j c Hj.
  destruct (Hm j c Hj) as [[Ha Hb]|[Ha Hb]]; [ left | right ]; rewrite <- H; auto.
Qed.

Lemma marked_step chars1 tOut hit l id :
  marked chars1 tOut hit l -> id < length chars1 ->
  exists l', (c1 <- rd l id ;; wr l id (N.lor c1 tOut)) = Ok l'
             /\ marked chars1 tOut (fun j => hit j \/ j = id) l'.
Proof.
  intros (Hlen & Hm) Hid.
  assert (Hc : nth_error chars1 id = Some (nth id chars1 0%N)) by (now apply nth_error_nth').
  destruct (Hm _ _ Hc) as [[Hh Hl]|[Hh Hl]];
    rewrite (rd_some _ _ _ Hl); cbn [bind]; rewrite wr_ok by lia; eexists; (split; [ reflexivity | ]);
    (split; [ now rewrite length_upd | ]); intros j c Hj; rewrite nth_error_upd;
    destruct (Nat.eqb_spec id j) as [->|Hne]; simpl;
    try (replace (j <? length l) with true by (symmetry; apply Nat.ltb_lt; lia));
    try (rewrite Hc in Hj; inversion Hj; subst).
  - left. split; auto. rewrite <- N.lor_assoc, N.lor_diag. reflexivity.
  - destruct (Hm j c Hj) as [[Ha Hb]|[Ha Hb]]; [ left | right ]; split; auto. intuition.
  - left. split; auto.
  - destruct (Hm j c Hj) as [[Ha Hb]|[Ha Hb]]; [ left | right ]; split; auto. intuition.
Qed.

Definition okid (n : nat) (a : option nat) : Prop := match a with Some id => id < n | None => True end.

(** the inner loop over adjacent entities, shared by both variants *)
Lemma propAdj_inner tab lo n tOut chars1 hit l :
  lo + n <= length tab -> Forall (okid (length chars1)) tab ->
  marked chars1 tOut hit l ->
  exists l', for_ 0 n (fun ae chars1 =>
        a <- rd tab (lo + ae) ;;
        match a with
        | None => Ok chars1
        | Some id => c1 <- rd chars1 id ;; wr chars1 id (N.lor c1 tOut)
        end) l = Ok l'
    /\ marked chars1 tOut
         (fun j => hit j \/ exists ae, ae < n /\ nth_error tab (lo + ae) = Some (Some j)) l'.
Proof.
  intros Hlen Hok Hm.
  apply (for_ok (fun m l => marked chars1 tOut
           (fun j => hit j \/ exists ae, ae < m /\ nth_error tab (lo + ae) = Some (Some j)) l)).
  - lia.
  - eapply marked_iff; [ | exact Hm ]. intros j. split; auto. intros [|(ae & ? & _)]; auto; lia.
  - intros k s Hk Hs.
    assert (Hnt : nth_error tab (lo + k) = Some (nth (lo + k) tab None)) by (apply nth_error_nth'; lia).
    rewrite (rd_some _ _ _ Hnt). cbn [bind].
    destruct (nth (lo + k) tab None) as [id|] eqn:Ea.
    + assert (id < length chars1) as Hid.
      { rewrite Forall_forall in Hok. apply (Hok (Some id)). eapply nth_error_In; eauto. }
      destruct (marked_step _ _ _ _ id Hs Hid) as (l' & E & Hl'). exists l'. split; auto.
      eapply marked_iff; [ | exact Hl' ]. intros j. split.
      * intros [[H|(ae & Hae & H)]| ->]; auto; right.
        -- exists ae. split; [ lia | auto ].
        -- exists k. split; [ lia | auto ].
      * intros [H|(ae & Hae & H)]; auto.
        destruct (Nat.eq_dec ae k) as [->|Hne]; [ right; congruence | ].
        left; right. exists ae. split; [ lia | auto ].
    + exists s. split; auto. eapply marked_iff; [ | exact Hs ]. intros j. split.
      * intros [H|(ae & Hae & H)]; auto. right. exists ae. split; [ lia | auto ].
      * intros [H|(ae & Hae & H)]; auto.
        destruct (Nat.eq_dec ae k) as [->|Hne]; [ congruence | ].
        right. exists ae. split; [ lia | auto ].
Qed.

Lemma propAdjFlat_ok nEn0 nPer tab tIn tOut chars0 chars1 :
  nEn0 <= length chars0 -> nEn0 * nPer <= length tab -> Forall (okid (length chars1)) tab ->
  exists l', propAdjFlat nEn0 nPer tab tIn tOut chars0 chars1 = Ok l' /\
    marked chars1 tOut (fun j => exists en ae, en < nEn0 /\ carries chars0 tIn en /\ ae < nPer
                                  /\ nth_error tab (en * nPer + ae) = Some (Some j)) l'.
Proof.
  intros H0 Ht Hok. unfold propAdjFlat.
  apply (for_ok (fun k l => marked chars1 tOut
          (fun j => exists en ae, en < k /\ carries chars0 tIn en /\ ae < nPer
                                  /\ nth_error tab (en * nPer + ae) = Some (Some j)) l)).
  - lia.
  - split; auto. intros j c Hj. right. split; auto. intros (en & ae & ? & _). lia.
  - intros k s Hk Hs. rdn 0%N. rewrite <- (sp_rd tIn chars0 k 0%N) by lia.
    destruct (sp tIn chars0 k) eqn:Esp.
    + edestruct (propAdj_inner tab (k * nPer) nPer tOut chars1) with (l := s) as (l' & E & Hl'); eauto.
      { assert (S k * nPer <= nEn0 * nPer) by (apply Nat.mul_le_mono_r; lia). simpl in *; lia. }
      exists l'. split; auto. eapply marked_iff; [ | exact Hl' ]. intros j. split.
      * intros [(en & ae & ? & H)|(ae & ? & ?)].
        -- exists en, ae. split; [ lia | auto ].
        -- exists k, ae. repeat split; auto. now apply sp_carries.
      * intros (en & ae & Hen & Hc & Hae & H).
        destruct (Nat.eq_dec en k) as [->|Hne]; [ right; eauto | left ].
        exists en, ae. split; [ lia | auto ].
    + exists s. split; auto. eapply marked_iff; [ | exact Hs ]. intros j. split.
      * intros (en & ae & ? & H). exists en, ae. split; [ lia | auto ].
      * intros (en & ae & Hen & Hc & Hae & H).
        destruct (Nat.eq_dec en k) as [->|Hne].
        -- apply sp_carries in Hc. congruence.
        -- exists en, ae. split; [ lia | auto ].
Qed.

(** offsets of a variable-length adjacency table: [nEn] entries plus ghost entry, ascending, inside the raw storage *)
Definition offsets_ok {A} (nEn : nat) (off : list nat) (raw : list A) : Prop :=
  length off = S nEn /\
  (forall i p q, nth_error off i = Some p -> nth_error off (S i) = Some q -> p <= q <= length raw).

Lemma propAdjPtr_ok nEn0 raw off tIn tOut chars0 chars1 :
  nEn0 <= length chars0 -> offsets_ok nEn0 off raw -> Forall (okid (length chars1)) raw ->
  exists l', propAdjPtr nEn0 raw off tIn tOut chars0 chars1 = Ok l' /\
    marked chars1 tOut (fun j => exists en p q i, en < nEn0 /\ carries chars0 tIn en
                                  /\ nth_error off en = Some p /\ nth_error off (S en) = Some q
                                  /\ p <= i < q /\ nth_error raw i = Some (Some j)) l'.
Proof.
  intros H0 (Hlo & Hoff) Hok. unfold propAdjPtr.
  apply (for_ok (fun k l => marked chars1 tOut
          (fun j => exists en p q i, en < k /\ carries chars0 tIn en
                                  /\ nth_error off en = Some p /\ nth_error off (S en) = Some q
                                  /\ p <= i < q /\ nth_error raw i = Some (Some j)) l)).
  - lia.
  - split; auto. intros j c Hj. right. split; auto. intros (en & p & q & i & ? & _). lia.
  - intros k s Hk Hs. rdn 0%N. rewrite <- (sp_rd tIn chars0 k 0%N) by lia.
    destruct (sp tIn chars0 k) eqn:Esp.
    + assert (Hp : nth_error off k = Some (nth k off 0)) by (apply nth_error_nth'; lia).
      assert (Hq : nth_error off (S k) = Some (nth (S k) off 0)) by (apply nth_error_nth'; lia).
      rewrite (rd_some _ _ _ Hp), (rd_some _ _ _ Hq). cbn [bind].
      set (p := nth k off 0) in *. set (q := nth (S k) off 0) in *.
      destruct (Hoff _ _ _ Hp Hq) as (Hpq & Hqr).
      edestruct (propAdj_inner raw p (q - p) tOut chars1) with (l := s) as (l' & E & Hl'); eauto; [ lia | ].
      exists l'. split; auto. eapply marked_iff; [ | exact Hl' ]. intros j. split.
      * intros [(en & p' & q' & i & ? & H)|(ae & ? & ?)].
        -- exists en, p', q', i. split; [ lia | auto ].
        -- exists k, p, q, (p + ae). repeat split; auto; try lia. now apply sp_carries.
      * intros (en & p' & q' & i & Hen & Hc & Hp' & Hq' & Hi & H).
        destruct (Nat.eq_dec en k) as [->|Hne].
        -- right. exists (i - p). rewrite Hp in Hp'. rewrite Hq in Hq'. inversion Hp'; inversion Hq'; subst p' q'.
           split; [ lia | ]. replace (p + (i - p)) with i by lia. auto.
        -- left. exists en, p', q', i. repeat (split; [ try lia; auto | ]); auto.
    + exists s. split; auto. eapply marked_iff; [ | exact Hs ]. intros j. split.
      * intros (en & p & q & i & ? & H). exists en, p, q, i. split; [ lia | auto ].
      * intros (en & p & q & i & Hen & Hc & H).
        destruct (Nat.eq_dec en k) as [->|Hne].
        -- apply sp_carries in Hc. congruence.
        -- exists en, p, q, i. split; [ lia | auto ].
Qed.

(** ** denseToSparse *)

(** number of entities in [a, a+n) carrying the type *)
Definition cnt (t : N) (chars : list N) (a n : nat) : nat := rank (sp t chars) (a + n) - rank (sp t chars) a.

Lemma cnt_spec t chars a n :
  cnt t chars a n = length (filter (sp t chars) (seq a n)).
Proof.
  unfold cnt, rank, ids. rewrite seq_app, filter_app, app_length. simpl. lia.
Qed.

Lemma denseToSparse_loop_ok nTgs t chars sizes first out :
  nTgs <= length sizes -> nTgs <= length out -> first + list_sum (firstn nTgs sizes) <= length chars ->
  exists out', denseToSparse_loop nTgs t chars sizes (first, out)
     = Ok (first + list_sum (firstn nTgs sizes), out') /\ length out' = length out /\
     (forall tg n, tg < nTgs -> nth_error sizes tg = Some n ->
        nth_error out' tg = Some (cnt t chars (first + list_sum (firstn tg sizes)) n)) /\
     (forall tg, nTgs <= tg -> nth_error out' tg = nth_error out tg).
Proof.
  intros Hs Ho Hc. unfold denseToSparse_loop.
  loop (fun k (p : nat * list nat) => fst p = first + list_sum (firstn k sizes) /\ length (snd p) = length out /\
     (forall tg n, tg < k -> nth_error sizes tg = Some n ->
        nth_error (snd p) tg = Some (cnt t chars (first + list_sum (firstn tg sizes)) n)) /\
     (forall tg, k <= tg -> nth_error (snd p) tg = nth_error out tg)) as (f, l) E (Hf & Hl & H1 & H2).
  - lia.
  - simpl. split; [ lia | ]. split; auto. split; auto. intros; lia.
  - intros k (f, l) Hk (Hf & Hl & H1 & H2). simpl in Hf, Hl, H1, H2. subst f.
    rewrite wr_ok by lia. cbn [bind].
    assert (Hn : nth_error sizes k = Some (nth k sizes 0)) by (apply nth_error_nth'; lia).
    rewrite (rd_some _ _ _ Hn). cbn [bind]. set (n := nth k sizes 0) in *.
    set (f := first + list_sum (firstn k sizes)) in *.
    assert (Hfn : f + n <= length chars).
    { assert (list_sum (firstn (S k) sizes) <= list_sum (firstn nTgs sizes)) as Hle.
      { clear -Hk. destruct Hk as [_ Hk]. replace nTgs with (S k + (nTgs - S k)) by lia.
        generalize (nTgs - S k) as m. intros m.
        assert (H : forall a (l : list nat), list_sum (firstn a l) <= list_sum (firstn (a + m) l)).
        { induction a as [|a IH]; intros [|x l]; simpl; try lia. specialize (IH l). lia. }
        apply H. }
      rewrite (firstn_S_snoc _ _ _ Hn), list_sum_app in Hle. simpl in Hle. unfold f. lia. }
    loop (fun e (o : list nat) => length o = length out /\ nth_error o k = Some (cnt t chars f (e - f))
            /\ forall tg, tg <> k -> nth_error o tg = nth_error l tg) as l' E (Hl' & Hk' & Hne').
    + lia.
    + rewrite length_upd. split; auto. split.
      * rewrite nth_error_upd_eq by lia. rewrite Nat.sub_diag. unfold cnt. rewrite Nat.add_0_r, Nat.sub_diag. auto.
      * intros tg Htg. apply nth_error_upd_ne. auto.
    + intros e o He (Hlo & Hko & Hoo). rdn 0%N. rewrite (rd_some _ _ _ Hko). cbn [bind].
      rewrite <- (sp_rd t chars e 0%N) by lia.
      assert (Hcn : cnt t chars f (S e - f) = cnt t chars f (e - f) + if sp t chars e then 1 else 0).
      { unfold cnt. replace (f + (S e - f)) with (S e) by lia. replace (f + (e - f)) with e by lia.
        rewrite rank_S. assert (rank (sp t chars) f <= rank (sp t chars) e) by (apply rank_mono; lia). lia. }
      destruct (sp t chars e).
      * rewrite wr_ok by lia. eexists; split; [ reflexivity | ]. rewrite length_upd. split; auto. split.
        -- rewrite nth_error_upd_eq by lia. rewrite Hcn. f_equal. lia.
        -- intros tg Htg. rewrite nth_error_upd_ne; auto.
      * eexists; split; [ reflexivity | ]. split; auto. split; auto. rewrite Hcn, Nat.add_0_r. auto.
    + eexists; split; [ reflexivity | ]. cbn [fst snd]. split.
      { rewrite (firstn_S_snoc _ _ _ Hn), list_sum_app. simpl. unfold f. lia. }
      split; auto. split.
      * intros tg m Htg Hm. destruct (Nat.eq_dec tg k) as [->|Hne].
        -- rewrite Hk'. rewrite Hn in Hm. inversion Hm; subst m. unfold f. repeat f_equal. lia.
        -- rewrite Hne' by auto. apply H1; auto. lia.
      * intros tg Htg. rewrite Hne' by lia. apply H2. lia.
  - exists l. simpl in *. subst f. auto.
Qed.

Lemma denseToSparse_ok nTgs t chars nIn nSe oIn oSe :
  nTgs <= length nIn -> nTgs <= length nSe -> length oIn = nTgs -> length oSe = nTgs ->
  list_sum (firstn nTgs nIn) + list_sum (firstn nTgs nSe) <= length chars ->
  exists oIn' oSe', denseToSparse nTgs t chars nIn nSe oIn oSe = Ok (oIn', oSe')
    /\ length oIn' = nTgs /\ length oSe' = nTgs
    /\ (forall tg n, tg < nTgs -> nth_error nIn tg = Some n ->
          nth_error oIn' tg = Some (cnt t chars (list_sum (firstn tg nIn)) n))
    /\ (forall tg n, tg < nTgs -> nth_error nSe tg = Some n ->
          nth_error oSe' tg = Some (cnt t chars (list_sum (firstn nTgs nIn) + list_sum (firstn tg nSe)) n)).
Proof.
  intros H1 H2 H3 H4 H5. unfold denseToSparse.
  destruct (denseToSparse_loop_ok nTgs t chars nIn 0 oIn) as (oIn' & E1 & L1 & P1 & _); try lia.
  rewrite E1. cbn [bind].
  destruct (denseToSparse_loop_ok nTgs t chars nSe (0 + list_sum (firstn nTgs nIn)) oSe) as (oSe' & E2 & L2 & P2 & _); try lia.
  rewrite E2. cbn [bind]. exists oIn', oSe'. repeat split; auto; lia.
Qed.

(** ** subRgnsSpId *)
Lemma list_sum_firstn_mono (l : list nat) a b : a <= b -> list_sum (firstn a l) <= list_sum (firstn b l).
Proof.
  revert a b; induction l as [|x l IH]; intros [|a] [|b] H; simpl; try lia.
  specialize (IH a b). lia.
Qed.

Lemma subRgnsSpId_ok rgnFirst nSub sizes t chars oF oS :
  nSub <= length sizes -> length oF = nSub -> length oS = nSub ->
  rgnFirst + list_sum (firstn nSub sizes) <= length chars ->
  exists oF' oS', subRgnsSpId rgnFirst nSub sizes t chars oF oS = Ok (oF', oS')
    /\ length oF' = nSub /\ length oS' = nSub
    /\ forall sr n, sr < nSub -> nth_error sizes sr = Some n ->
         nth_error oF' sr = Some (rank (sp t chars) (rgnFirst + list_sum (firstn sr sizes)))
         /\ nth_error oS' sr = Some (cnt t chars (rgnFirst + list_sum (firstn sr sizes)) n).
Proof.
  intros Hsz HoF HoS Hc. unfold subRgnsSpId.
  loop (fun i c => c = rank (sp t chars) i) as s E H.
  { lia. } { reflexivity. }
  { intros k s Hk ->. rdn 0%N. eexists; split; [ reflexivity | ].
    rewrite rank_S, (sp_rd t chars k 0%N) by lia. destruct (has _ _); lia. }
  subst s.
  loop (fun k (p : nat * nat * list nat * list nat) =>
          let '(en, first, f, z) := p in
          en = rgnFirst + list_sum (firstn k sizes) /\ first = rank (sp t chars) en
          /\ length f = nSub /\ length z = nSub
          /\ forall sr n, sr < k -> nth_error sizes sr = Some n ->
         nth_error f sr = Some (rank (sp t chars) (rgnFirst + list_sum (firstn sr sizes)))
         /\ nth_error z sr = Some (cnt t chars (rgnFirst + list_sum (firstn sr sizes)) n))
    as (((en, first), f), z) E (Hen & Hfi & Hf & Hz & H).
  - lia.
  - cbn [firstn list_sum fold_right]. rewrite Nat.add_0_r. repeat split; auto; lia.
  - intros k (((en, first), f), z) Hk (Hen & Hfi & Hf & Hz & H).
    rewrite wr_ok by lia. cbn [bind].
    assert (Hn : nth_error sizes k = Some (nth k sizes 0)) by (apply nth_error_nth'; lia).
    rewrite (rd_some _ _ _ Hn). cbn [bind]. set (n := nth k sizes 0) in *.
    rewrite wr_ok by lia. cbn [bind].
    assert (Hfn : en + n <= length chars).
    { assert (list_sum (firstn (S k) sizes) <= list_sum (firstn nSub sizes)) as Hle
        by (apply list_sum_firstn_mono; lia).
      rewrite (firstn_S_snoc _ _ _ Hn), list_sum_app in Hle. simpl in Hle. lia. }
    loop (fun e (p : nat * list nat) => fst p = rank (sp t chars) e /\ length (snd p) = nSub
            /\ nth_error (snd p) k = Some (cnt t chars en (e - en))
            /\ forall sr, sr <> k -> nth_error (snd p) sr = nth_error z sr) as (first', z') E (Hfi' & Hl' & Hk' & Hne').
    + lia.
    + simpl. rewrite length_upd. split; auto. split; auto. split.
      * rewrite nth_error_upd_eq by lia. rewrite Nat.sub_diag. unfold cnt. rewrite Nat.add_0_r, Nat.sub_diag. auto.
      * intros sr Hsr. apply nth_error_upd_ne. auto.
    + intros e (fi, o) He (Hfi' & Hlo & Hko & Hoo). simpl in Hfi', Hlo, Hko, Hoo. rdn 0%N.
      rewrite <- (sp_rd t chars e 0%N) by lia.
      assert (Hcn : cnt t chars en (S e - en) = cnt t chars en (e - en) + if sp t chars e then 1 else 0).
      { unfold cnt. replace (en + (S e - en)) with (S e) by lia. replace (en + (e - en)) with e by lia.
        rewrite rank_S. assert (rank (sp t chars) en <= rank (sp t chars) e) by (apply rank_mono; lia). lia. }
      rewrite rank_S. destruct (sp t chars e).
      * rewrite (rd_some _ _ _ Hko). cbn [bind]. rewrite wr_ok by lia. cbn [bind].
        eexists; split; [ reflexivity | ]. cbn [fst snd]. rewrite length_upd. split; [ lia | ]. split; auto. split.
        -- rewrite nth_error_upd_eq by lia. rewrite Hcn. f_equal. lia.
        -- intros sr Hsr. rewrite nth_error_upd_ne; auto.
      * eexists; split; [ reflexivity | ]. cbn [fst snd]. split; [ lia | ]. split; auto. split; auto.
        rewrite Hcn, Nat.add_0_r. auto.
    + eexists; split; [ reflexivity | ]. cbn [fst snd] in *.
      split. { rewrite (firstn_S_snoc _ _ _ Hn), list_sum_app. simpl. lia. }
      split. { auto. } split. { now rewrite length_upd. } split; auto.
      intros sr m Hsr Hm. destruct (Nat.eq_dec sr k) as [->|Hne].
      * rewrite nth_error_upd_eq by lia. split; [ now subst first en | ].
        rewrite Hk'. rewrite Hn in Hm. inversion Hm; subst m en. repeat f_equal. lia.
      * rewrite nth_error_upd_ne by auto. rewrite Hne' by auto. apply H; auto. lia.
  - exists f, z. auto.
Qed.

(** ** Sparse adjacency tables *)
Lemma nAdjEnFlat_ok nEn nAdj tab :
  nEn * nAdj <= length tab ->
  exists m, nAdjEnFlat nEn nAdj tab = Ok (S m) /\
    (forall i id, i < nEn * nAdj -> nth_error tab i = Some (Some id) -> id <= m) /\
    (m = 0 \/ exists i, i < nEn * nAdj /\ nth_error tab i = Some (Some m)).
Proof.
  intros Hlen. unfold nAdjEnFlat.
  loop (fun k m => (forall i id, i < k * nAdj -> nth_error tab i = Some (Some id) -> id <= m) /\
            (m = 0 \/ exists i, i < k * nAdj /\ nth_error tab i = Some (Some m))) as m E (H1 & H2).
  - lia.
  - split; [ intros; lia | auto ].
  - intros k m Hk (H1 & H2).
    assert (Hk1 : S k * nAdj <= nEn * nAdj) by (apply Nat.mul_le_mono_r; lia).
    replace (S k * nAdj) with (k * nAdj + nAdj) in * by lia.
    apply (for_ok (fun j m => (forall i id, i < k * nAdj + j -> nth_error tab i = Some (Some id) -> id <= m) /\
            (m = 0 \/ exists i, i < k * nAdj + j /\ nth_error tab i = Some (Some m)))).
    + lia.
    + rewrite Nat.add_0_r. auto.
    + intros j m' Hj (H1' & H2').
      assert (Hn : nth_error tab (k * nAdj + j) = Some (nth (k * nAdj + j) tab None)) by (apply nth_error_nth'; lia).
      rewrite (rd_some _ _ _ Hn). cbn [bind].
      destruct (nth (k * nAdj + j) tab None) as [id|].
      * eexists; split; [ reflexivity | ]. split.
        -- intros i id' Hi Hid. destruct (Nat.eq_dec i (k * nAdj + j)) as [->|].
           ++ rewrite Hn in Hid. inversion Hid; subst. lia.
           ++ assert (id' <= m') by (eapply H1'; eauto; lia). lia.
        -- destruct (Nat.max_spec m' id) as [(Hlt & ->)|(Hle & ->)].
           ++ right. exists (k * nAdj + j). split; auto. lia.
           ++ destruct H2' as [|(i & Hi & Hit)]; auto. right. exists i. split; auto. lia.
      * eexists; split; [ reflexivity | ]. split.
        -- intros i id' Hi Hid. destruct (Nat.eq_dec i (k * nAdj + j)) as [->|]; [ congruence | ].
           eapply H1'; eauto; lia.
        -- destruct H2' as [|(i & Hi & Hit)]; auto. right. exists i. split; auto. lia.
  - exists m. auto.
Qed.

Lemma adjDeToSp_ok n t chars :
  n <= length chars ->
  exists lut, adjDeToSp n t chars = Ok lut /\ length lut = n /\
    forall id, id < n -> nth_error lut id = Some (if sp t chars id then Some (rank (sp t chars) id) else None).
Proof.
  intros Hn. unfold adjDeToSp.
  loop (fun k (p : nat * list (option nat)) => fst p = rank (sp t chars) k /\ length (snd p) = n /\
    forall id, id < k -> nth_error (snd p) id = Some (if sp t chars id then Some (rank (sp t chars) id) else None))
    as (k, l) E (Hk & Hl & H).
  - lia.
  - simpl. rewrite repeat_length. split; auto. split; auto. intros; lia.
  - intros k (r, l) Hk (Hr & Hl & H). simpl in Hr, Hl, H. subst r. rdn 0%N.
    rewrite <- (sp_rd t chars k 0%N) by lia. rewrite rank_S.
    destruct (sp t chars k) eqn:Esp; rewrite wr_ok by lia; cbn [bind]; eexists; (split; [ reflexivity | ]);
      cbn [fst snd]; rewrite length_upd; (split; [ lia | ]); (split; [ auto | ]);
      intros id Hid; rewrite nth_error_upd; destruct (Nat.eqb_spec k id) as [->|Hne]; simpl;
      try (apply H; lia); replace (id <? length l) with true by (symmetry; apply Nat.ltb_lt; lia); now rewrite Esp.
  - exists l. auto.
Qed.

(** writing one row of a flat table: [w] tells which value is written for an adjacent id, if any *)
Lemma row_ok (tab : list (option nat)) de nAdj (w : option nat -> option (option nat))
    (body : nat -> list (option nat) -> res (list (option nat))) base o :
  (forall ae o, ae < nAdj -> length o >= base + nAdj ->
     exists a, nth_error tab (de * nAdj + ae) = Some a /\
       body ae o = match w a with Some v => wr o (base + ae) v | None => Ok o end) ->
  base + nAdj <= length o ->
  exists o', for_ 0 nAdj body o = Ok o' /\ length o' = length o /\
    (forall i, i < base \/ base + nAdj <= i -> nth_error o' i = nth_error o i) /\
    (forall ae a, ae < nAdj -> nth_error tab (de * nAdj + ae) = Some a ->
       nth_error o' (base + ae) = match w a with Some v => Some v | None => nth_error o (base + ae) end).
Proof.
  intros Hb Hlen.
  destruct (for_ok (fun k o' => length o' = length o /\
    (forall i, i < base \/ base + k <= i -> nth_error o' i = nth_error o i) /\
    (forall ae a, ae < k -> nth_error tab (de * nAdj + ae) = Some a ->
       nth_error o' (base + ae) = match w a with Some v => Some v | None => nth_error o (base + ae) end))
     0 nAdj body o) as (o' & E & H1 & H2 & H3).
  - lia.
  - split; auto. split; auto. intros; lia.
  - intros k s Hk (H1 & H2 & H3).
    destruct (Hb k s) as (a & Ha & ->); [ lia | lia | ].
    destruct (w a) as [v|] eqn:Ew.
    + rewrite wr_ok by lia. eexists; split; [ reflexivity | ]. rewrite length_upd. split; auto. split.
      * intros i Hi. rewrite nth_error_upd_ne by lia. apply H2. lia.
      * intros ae b Hae Hab. destruct (Nat.eq_dec ae k) as [->|Hne].
        -- rewrite nth_error_upd_eq by lia. rewrite Ha in Hab. inversion Hab; subst b. now rewrite Ew.
        -- rewrite nth_error_upd_ne by lia. apply H3; auto. lia.
    + eexists; split; [ reflexivity | ]. split; auto. split.
      * intros i Hi. apply H2. lia.
      * intros ae b Hae Hab. destruct (Nat.eq_dec ae k) as [->|Hne].
        -- rewrite Ha in Hab. inversion Hab; subst b. rewrite Ew. apply H2. lia.
        -- apply H3; auto. lia.
  - exists o'. auto.
Qed.

(** sparse id of an adjacent entity, [None] if invalid or not of the type *)
Definition spLink (t : N) (chars : list N) (a : option nat) : option nat :=
  match a with
  | Some id => if sp t chars id then Some (rank (sp t chars) id) else None
  | None => None
  end.

Lemma row_bound k n (P : nat -> bool) nAdj :
  k < n -> P k = true -> rank P k * nAdj + nAdj <= rank P n * nAdj.
Proof.
  intros Hk HP. assert (rank P k < rank P n) by (apply rank_lt; auto).
  replace (rank P k * nAdj + nAdj) with (S (rank P k) * nAdj) by lia.
  apply Nat.mul_le_mono_r. lia.
Qed.

Lemma row_disj a b nAdj ae : a < b -> ae < nAdj -> a * nAdj + ae < b * nAdj.
Proof.
  intros H1 H2. assert (S a * nAdj <= b * nAdj) by (apply Nat.mul_le_mono_r; lia). simpl in *; lia.
Qed.

(** writing all rows of a flat table for the from-entities selected by [P] *)
Lemma rows_ok (tab : list (option nat)) nEn nAdj (P : nat -> bool) (w : option nat -> option (option nat))
    (body : nat -> nat * list (option nat) -> res (nat * list (option nat))) o :
  nEn * nAdj <= length tab ->
  length o = rank P nEn * nAdj ->
  (forall de spId o, de < nEn -> (P de = true -> spId * nAdj + nAdj <= length o) ->
     (P de = false -> body de (spId, o) = Ok (spId, o)) /\
     (P de = true -> exists o', body de (spId, o) = Ok (S spId, o') /\ length o' = length o /\
        (forall i, i < spId * nAdj \/ spId * nAdj + nAdj <= i -> nth_error o' i = nth_error o i) /\
        (forall ae a, ae < nAdj -> nth_error tab (de * nAdj + ae) = Some a ->
          nth_error o' (spId * nAdj + ae) = match w a with Some v => Some v | None => nth_error o (spId * nAdj + ae) end))) ->
  exists o', for_ 0 nEn body (0, o) = Ok (rank P nEn, o') /\ length o' = length o /\
    forall de ae a, de < nEn -> P de = true -> ae < nAdj -> nth_error tab (de * nAdj + ae) = Some a ->
      nth_error o' (rank P de * nAdj + ae)
      = match w a with Some v => Some v | None => nth_error o (rank P de * nAdj + ae) end.
Proof.
  intros Htab Ho Hb.
  destruct (for_ok (fun k (p : nat * list (option nat)) =>
      fst p = rank P k /\ length (snd p) = length o /\
      (forall i, rank P k * nAdj <= i -> nth_error (snd p) i = nth_error o i) /\
      (forall de ae a, de < k -> P de = true -> ae < nAdj -> nth_error tab (de * nAdj + ae) = Some a ->
      nth_error (snd p) (rank P de * nAdj + ae)
      = match w a with Some v => Some v | None => nth_error o (rank P de * nAdj + ae) end))
     0 nEn body (0, o)) as ((r, o') & E & Hr & H1 & H2 & H3).
  - lia.
  - simpl. repeat split; auto. intros; lia.
  - intros k (r, s) Hk (Hr & H1 & H2 & H3). simpl in Hr, H1, H2, H3. subst r.
    destruct (Hb k (rank P k) s) as (Hf & Ht); [ lia | | ].
    { intros HP. pose proof (row_bound k nEn P nAdj). lia. }
    rewrite rank_S. destruct (P k) eqn:EP.
    + destruct (Ht eq_refl) as (o' & E & L & D & V). exists (S (rank P k), o'). split; auto. cbn [fst snd].
      split; [ lia | ]. split; [ lia | ]. split.
      * intros i Hi. rewrite D by lia. apply H2. lia.
      * intros de ae a Hde HPd Hae Ha. destruct (Nat.eq_dec de k) as [->|Hne].
        -- rewrite (V _ _ Hae Ha). destruct (w a); auto. apply H2. lia.
        -- assert (rank P de < rank P k) by (apply rank_lt; auto; lia).
           pose proof (row_disj _ _ nAdj ae H Hae). rewrite D by lia. apply H3; auto. lia.
    + exists (rank P k, s). split; auto. cbn [fst snd]. rewrite Nat.add_0_r. repeat split; auto.
      intros de ae a Hde HPd Hae Ha. destruct (Nat.eq_dec de k) as [->|Hne]; [ congruence | ].
      apply H3; auto. lia.
  - simpl in *. subst r. exists o'. auto.
Qed.

Lemma linkSpAdjDst_ok nEn nAdj tab tF tT cF cT o :
  0 < nAdj -> nEn * nAdj <= length tab -> nEn <= length cF -> 0 < length cT -> Forall (okid (length cT)) tab ->
  length o = rank (sp tF cF) nEn * nAdj ->
  exists o', linkSpAdjDst nEn nAdj tab tF tT cF cT o = Ok o' /\ length o' = length o /\
    forall de ae a, de < nEn -> sp tF cF de = true -> ae < nAdj -> nth_error tab (de * nAdj + ae) = Some a ->
      nth_error o' (rank (sp tF cF) de * nAdj + ae) = Some (spLink tT cT a).
Proof.
  intros Hn Htab HcF HcT Hok Ho. unfold linkSpAdjDst.
  destruct (Nat.eqb_spec nEn 0) as [->|Hne]. { exists o. repeat split; auto. intros; lia. }
  replace (0 <? nAdj) with true by (symmetry; apply Nat.ltb_lt; lia). cbn [check bind].
  destruct (nAdjEnFlat_ok nEn nAdj tab Htab) as (m & -> & Hm1 & Hm2). cbn [bind].
  assert (HmT : S m <= length cT).
  { destruct Hm2 as [->|(i & Hi & Hit)]; [ lia | ]. rewrite Forall_forall in Hok.
    apply nth_error_In in Hit. apply (Hok _ Hit). }
  destruct (adjDeToSp_ok (S m) tT cT HmT) as (lut & -> & Hlut & Hlutv). cbn [bind].
  match goal with |- context [for_ 0 nEn ?b (0, o)] =>
    destruct (rows_ok tab nEn nAdj (sp tF cF) (fun a => Some (spLink tT cT a)) b o) as (o' & E & L & V)
  end; auto.
  - intros de spId s Hde Hs. rewrite (rd_ok cF de 0%N) by lia. cbn [bind].
    rewrite <- (sp_rd tF cF de 0%N) by lia.
    split; intros Esp; rewrite Esp; auto. specialize (Hs Esp).
    match goal with |- context [for_ 0 nAdj ?b s] =>
      destruct (row_ok tab de nAdj (fun a => Some (spLink tT cT a)) b (spId * nAdj) s) as (s' & E & L & D & V)
    end; [ | lia | ].
    + intros ae x Hae Hx.
      assert (de * nAdj + ae < nEn * nAdj) as Hi by (apply row_disj; auto).
      assert (Ha : nth_error tab (de * nAdj + ae) = Some (nth (de * nAdj + ae) tab None)) by (apply nth_error_nth'; lia).
      eexists; split; [ exact Ha | ]. rewrite (rd_some _ _ _ Ha). cbn [bind].
      destruct (nth (de * nAdj + ae) tab None) as [id|]; simpl; auto.
      assert (id <= m) by (eapply Hm1; eauto).
      rewrite (rd_ok cT id 0%N) by lia. cbn [bind]. rewrite <- (sp_rd tT cT id 0%N) by lia.
      assert (Hlid := Hlutv id). destruct (sp tT cT id) eqn:Et; auto.
      rewrite (rd_some lut id (Some (rank (sp tT cT) id))) by (apply Hlid; lia). reflexivity.
    + exists s'. rewrite E. cbn [bind]. auto.
  - rewrite E. cbn [bind]. exists o'. split; [ reflexivity | ]. split; [ auto | ].
    intros de ae a Hde Hsp Hae Ha. rewrite (V de ae a); auto.
Qed.

(** from-entities of the single sparse type variant: at least one valid adjacent entity of the type *)
Definition adjSp (t : N) (chars : list N) (tab : list (option nat)) (nAdj : nat) (de : nat) : bool :=
  existsb (fun ae => match nth_error tab (de * nAdj + ae) with
                     | Some (Some id) => sp t chars id
                     | _ => false end) (seq 0 nAdj).

Lemma linkSpAdjSst_ok nEn nAdj tab t cA o :
  0 < nAdj -> nEn * nAdj <= length tab -> 0 < length cA -> Forall (okid (length cA)) tab ->
  length o = rank (adjSp t cA tab nAdj) nEn * nAdj ->
  exists o', linkSpAdjSst nEn nAdj tab t cA o = Ok o' /\ length o' = length o /\
    forall de ae a, de < nEn -> adjSp t cA tab nAdj de = true -> ae < nAdj ->
      nth_error tab (de * nAdj + ae) = Some a ->
      nth_error o' (rank (adjSp t cA tab nAdj) de * nAdj + ae)
      = match a with
        | Some _ => Some (spLink t cA a)
        | None => nth_error o (rank (adjSp t cA tab nAdj) de * nAdj + ae)
        end.
Proof.
  intros Hn Htab HcT Hok Ho. unfold linkSpAdjSst.
  destruct (Nat.eqb_spec nEn 0) as [->|Hne]. { exists o. repeat split; auto. intros; lia. }
  replace (0 <? nAdj) with true by (symmetry; apply Nat.ltb_lt; lia). cbn [check bind].
  destruct (nAdjEnFlat_ok nEn nAdj tab Htab) as (m & -> & Hm1 & Hm2). cbn [bind].
  assert (HmT : S m <= length cA).
  { destruct Hm2 as [->|(i & Hi & Hit)]; [ lia | ]. rewrite Forall_forall in Hok.
    apply nth_error_In in Hit. apply (Hok _ Hit). }
  destruct (adjDeToSp_ok (S m) t cA HmT) as (lut & -> & Hlut & Hlutv). cbn [bind].
  set (w := fun a : option nat => match a with Some _ => Some (spLink t cA a) | None => None end).
  match goal with |- context [for_ 0 nEn ?b (0, o)] =>
    destruct (rows_ok tab nEn nAdj (adjSp t cA tab nAdj) w b o) as (o' & E & L & V)
  end; auto.
  - intros de spId s Hde Hs.
    match goal with |- context [for_ 0 nAdj ?b false] =>
      assert (Hsc : for_ 0 nAdj b false = Ok (adjSp t cA tab nAdj de))
    end.
    { loop (fun k (b : bool) => b = existsb (fun ae => match nth_error tab (de * nAdj + ae) with
                     | Some (Some id) => sp t cA id | _ => false end) (seq 0 k)) as b E Hb.
      - lia.
      - reflexivity.
      - intros k b Hk Hb.
        assert (de * nAdj + k < nEn * nAdj) as Hi by (apply row_disj; auto; lia).
        assert (Ha : nth_error tab (de * nAdj + k) = Some (nth (de * nAdj + k) tab None)) by (apply nth_error_nth'; lia).
        rewrite (rd_some _ _ _ Ha). cbn [bind]. rewrite seq_snoc, existsb_app, <- Hb. cbn [existsb]. rewrite Nat.add_0_l, Ha.
        destruct (nth (de * nAdj + k) tab None) as [id|].
        + assert (id <= m) by (eapply Hm1; eauto).
          rewrite (rd_ok cA id 0%N) by lia. cbn [bind]. rewrite <- (sp_rd t cA id 0%N) by lia.
          eexists; split; [ reflexivity | ]. destruct (sp t cA id), b; reflexivity.
        + eexists; split; [ reflexivity | ]. destruct b; reflexivity.
      - now subst b. }
    rewrite Hsc. cbn [bind].
    split; intros Esp; rewrite Esp; auto. specialize (Hs Esp).
    match goal with |- context [for_ 0 nAdj ?b s] =>
      destruct (row_ok tab de nAdj w b (spId * nAdj) s) as (s' & E & L & D & V)
    end; [ | lia | ].
    + intros ae x Hae Hx.
      assert (de * nAdj + ae < nEn * nAdj) as Hi by (apply row_disj; auto).
      assert (Ha : nth_error tab (de * nAdj + ae) = Some (nth (de * nAdj + ae) tab None)) by (apply nth_error_nth'; lia).
      eexists; split; [ exact Ha | ]. rewrite (rd_some _ _ _ Ha). cbn [bind].
      destruct (nth (de * nAdj + ae) tab None) as [id|]; simpl; auto.
      assert (id <= m) by (eapply Hm1; eauto).
      rewrite (rd_ok cA id 0%N) by lia. cbn [bind]. rewrite <- (sp_rd t cA id 0%N) by lia.
      assert (Hlid := Hlutv id). destruct (sp t cA id) eqn:Et; auto.
      rewrite (rd_some lut id (Some (rank (sp t cA) id))) by (apply Hlid; lia). reflexivity.
    + exists s'. rewrite E. cbn [bind]. auto.
  - rewrite E. cbn [bind]. exists o'. split; auto. split; auto.
    intros de ae a Hde Hsp Hae Ha. rewrite (V de ae a); auto. destruct a; reflexivity.
Qed.

(** ** Variable-length adjacency *)

Definition valid_id (n : nat) (a : option nat) : Prop := exists id, a = Some id /\ id < n.

(** the adjacent entities of from-entity [de] *)
Definition adjRow {A} (off : list nat) (raw : list A) (de : nat) : list A :=
  firstn (nth (S de) off 0 - nth de off 0) (skipn (nth de off 0) raw).

(** sparse ids of the adjacent entities of the type, in order *)
Definition linkRow (t : N) (chars : list N) (row : list (option nat)) : list (option nat) :=
  flat_map (fun a => match spLink t chars a with Some r => [Some r] | None => [] end) row.

Definition rows (t : N) (chars : list N) (off : list nat) (raw : list (option nat)) (l : list nat) :=
  map (fun de => linkRow t chars (adjRow off raw de)) l.

Lemma nth_error_firstn_lt {A} (l : list A) n i : i < n -> nth_error (firstn n l) i = nth_error l i.
Proof. revert n i; induction l as [|x l IH]; intros [|n] [|i] H; simpl; auto; try lia. apply IH. lia. Qed.

Lemma nth_error_skipn {A} (l : list A) n i : nth_error (skipn n l) i = nth_error l (n + i).
Proof. revert n; induction l as [|x l IH]; intros [|n]; simpl; auto. destruct i; auto. Qed.

Lemma adjRow_nth {A} (off : list nat) (raw : list A) de p q k :
  nth_error off de = Some p -> nth_error off (S de) = Some q -> p <= q <= length raw -> k < q - p ->
  nth_error (adjRow off raw de) k = nth_error raw (p + k) /\ length (adjRow off raw de) = q - p.
Proof.
  intros Hp Hq Hle Hk. unfold adjRow.
  rewrite (nth_error_nth _ _ 0 Hp), (nth_error_nth _ _ 0 Hq). split.
  - rewrite nth_error_firstn_lt by auto. apply nth_error_skipn.
  - rewrite firstn_length, skipn_length. lia.
Qed.

Lemma adjRow_length {A} (off : list nat) (raw : list A) de p q :
  nth_error off de = Some p -> nth_error off (S de) = Some q -> p <= q <= length raw ->
  length (adjRow off raw de) = q - p.
Proof.
  intros Hp Hq Hle. unfold adjRow.
  rewrite (nth_error_nth _ _ 0 Hp), (nth_error_nth _ _ 0 Hq), firstn_length, skipn_length. lia.
Qed.

Lemma linkRow_snoc t chars l a :
  linkRow t chars (l ++ [a]) = linkRow t chars l ++ match spLink t chars a with Some r => [Some r] | None => [] end.
Proof. unfold linkRow. rewrite flat_map_app. simpl. now rewrite app_nil_r. Qed.

Lemma nLinkSpAdjDst_ok nEn raw off tF tT cF cT :
  nEn <= length cF -> offsets_ok nEn off raw -> Forall (valid_id (length cT)) raw ->
  nLinkSpAdjDst nEn raw off tF tT cF cT
  = Ok (length (concat (rows tT cT off raw (ids (sp tF cF) nEn))), rank (sp tF cF) nEn).
Proof.
  intros HcF (Hlo & Hoff) Hok. unfold nLinkSpAdjDst. rewrite Forall_forall in Hok.
  loop (fun k (p : nat * nat) => p = (length (concat (rows tT cT off raw (ids (sp tF cF) k))), rank (sp tF cF) k)) as s E H.
  - lia.
  - reflexivity.
  - intros k s Hk ->. rdn 0%N. rewrite <- (sp_rd tF cF k 0%N) by lia.
    rewrite rank_S, ids_S. destruct (sp tF cF k) eqn:Esp; cbn [negb].
    + assert (Hp : nth_error off k = Some (nth k off 0)) by (apply nth_error_nth'; lia).
      assert (Hq : nth_error off (S k) = Some (nth (S k) off 0)) by (apply nth_error_nth'; lia).
      rewrite (rd_some _ _ _ Hp), (rd_some _ _ _ Hq). cbn [bind].
      set (p := nth k off 0) in *. set (q := nth (S k) off 0) in *.
      pose proof (Hoff _ _ _ Hp Hq) as Hpq.
      set (base := length (concat (rows tT cT off raw (ids (sp tF cF) k)))).
      loop (fun j n => n = base + length (linkRow tT cT (firstn j (adjRow off raw k)))) as n E Hn.
      * lia.
      * simpl. lia.
      * intros j n Hj ->.
        destruct (adjRow_nth off raw k p q j Hp Hq Hpq) as (Hr & Hrl); [ lia | ].
        assert (Ha : nth_error raw (p + j) = Some (nth (p + j) raw None)) by (apply nth_error_nth'; lia).
        rewrite (rd_some _ _ _ Ha). cbn [bind]. rewrite Ha in Hr.
        destruct (Hok (nth (p + j) raw None)) as (id & Hid & Hlt); [ eapply nth_error_In; eauto | ].
        rewrite Hid in *. rewrite (rd_ok cT id 0%N) by lia. cbn [bind]. rewrite <- (sp_rd tT cT id 0%N) by lia.
        eexists; split; [ reflexivity | ].
        rewrite (firstn_S_snoc _ _ _ Hr), linkRow_snoc, app_length. cbn [spLink].
        destruct (sp tT cT id); simpl; lia.
      * eexists; split; [ reflexivity | ]. subst n.
        rewrite <- (adjRow_length off raw k p q Hp Hq Hpq), firstn_all.
        unfold rows. rewrite map_app, concat_app, app_length. cbn [map concat]. rewrite app_nil_r.
        f_equal. lia.
    + eexists; split; [ reflexivity | ]. rewrite Nat.add_0_r, app_nil_r. reflexivity.
  - now subst s.
Qed.

(** offset of the first entry of the [i]-th row in the concatenation *)
Definition rowOff {A} (rs : list (list A)) (i : nat) : nat := length (concat (firstn i rs)).

Lemma concat_snoc {A} (ll : list (list A)) l : concat (ll ++ [l]) = concat ll ++ l.
Proof. rewrite concat_app. simpl. now rewrite app_nil_r. Qed.

Lemma concat_rank_le t chars off raw P a b :
  a <= b -> length (concat (rows t chars off raw (ids P a))) <= length (concat (rows t chars off raw (ids P b))).
Proof.
  induction 1 as [|b H IH]; auto. rewrite ids_S. unfold rows in *. rewrite map_app, concat_app, app_length. lia.
Qed.

Lemma linkSpAdjDstPtr_ok nEn raw off tF tT cF cT oR oP :
  nEn <= length cF -> offsets_ok nEn off raw -> Forall (valid_id (length cT)) raw -> 0 < length cT ->
  length oR = length (concat (rows tT cT off raw (ids (sp tF cF) nEn))) ->
  length oP = S (rank (sp tF cF) nEn) ->
  exists oP', linkSpAdjDstPtr nEn raw off tF tT cF cT oR oP
      = Ok (concat (rows tT cT off raw (ids (sp tF cF) nEn)), oP')
    /\ length oP' = length oP
    /\ forall i, i <= rank (sp tF cF) nEn ->
         nth_error oP' i = Some (rowOff (rows tT cT off raw (ids (sp tF cF) nEn)) i).
Proof.
  intros HcF (Hlo & Hoff) Hok HcT HoR HoP. unfold linkSpAdjDstPtr. rewrite Forall_forall in Hok.
  rewrite wr_ok by lia. cbn [bind].
  set (R := rows tT cT off raw) in *. set (P := sp tF cF) in *.
  (* highest adjacent id *)
  loop (fun k m => m < length cT /\
          forall de p q i id, de < k -> nth_error off de = Some p -> nth_error off (S de) = Some q ->
            p <= i < q -> nth_error raw i = Some (Some id) -> id <= m) as m E (Hm & Hmx).
  { lia. } { split; auto. intros; lia. }
  { intros k m Hk (Hm & Hmx).
    assert (Hp : nth_error off k = Some (nth k off 0)) by (apply nth_error_nth'; lia).
    assert (Hq : nth_error off (S k) = Some (nth (S k) off 0)) by (apply nth_error_nth'; lia).
    rewrite (rd_some _ _ _ Hp), (rd_some _ _ _ Hq). cbn [bind].
    set (p := nth k off 0) in *. set (q := nth (S k) off 0) in *.
    pose proof (Hoff _ _ _ Hp Hq) as Hpq.
    match goal with |- exists s', for_ 0 (q - p) ?b m = _ /\ _ =>
    destruct (for_ok (fun j m' => m' < length cT /\ m <= m' /\
       forall i id, p <= i < p + j -> nth_error raw i = Some (Some id) -> id <= m') 0 (q - p) b m) as (m' & E & H1 & H2 & H3) end.
    - lia.
    - split; auto. split; auto. intros; lia.
    - intros j m' Hj (H1 & H2 & H3).
      assert (Ha : nth_error raw (p + j) = Some (nth (p + j) raw None)) by (apply nth_error_nth'; lia).
      rewrite (rd_some _ _ _ Ha). cbn [bind].
      destruct (Hok (nth (p + j) raw None)) as (id & Hid & Hlt); [ eapply nth_error_In; eauto | ].
      rewrite Hid in *. eexists; split; [ reflexivity | ]. split; [ lia | ]. split; [ lia | ].
      intros i id' Hi Hid'. destruct (Nat.eq_dec i (p + j)) as [->|].
      + rewrite Ha in Hid'. inversion Hid'; subst. lia.
      + assert (id' <= m') by (eapply H3; eauto; lia). lia.
    - exists m'. split; auto. split; auto. intros de p' q' i id Hde Hp' Hq' Hi Hid.
      destruct (Nat.eq_dec de k) as [->|].
      + rewrite Hp in Hp'. rewrite Hq in Hq'. inversion Hp'; inversion Hq'; subst p' q'.
        eapply H3; eauto. lia.
      + assert (id <= m) by (apply (Hmx de p' q' i id); auto; lia). lia. }
  destruct (adjDeToSp_ok (S m) tT cT Hm) as (lut & -> & Hlut & Hlutv). cbn [bind].
  loop (fun k (st : nat * nat * list (option nat) * list nat) =>
         let '(spId, lr, r, pt) := st in
         spId = rank P k /\ lr = length (concat (R (ids P k)))
         /\ r = concat (R (ids P k)) ++ skipn lr oR
         /\ length pt = length oP
         /\ (forall i, i < rank P k -> nth_error pt i = Some (rowOff (R (ids P nEn)) i)))
    as (((spId, lr), r), pt) E (Hsp & Hlr & Hr & Hpt & Hrows).
  - lia.
  - repeat split; auto. apply length_upd. cbn. intros; lia.
  - intros k (((spId, lr), r), pt) Hk (Hsp & Hlr & Hr & Hpt & Hrows).
    rewrite (rd_ok cF k 0%N) by lia. cbn [bind]. rewrite <- (sp_rd tF cF k 0%N) by lia. fold P.
    rewrite rank_S, ids_S. destruct (P k) eqn:Esp.
    + assert (Hrk : rank P k < rank P nEn) by (apply rank_lt; auto; lia).
      rewrite wr_ok by lia. cbn [bind].
      assert (Hp : nth_error off k = Some (nth k off 0)) by (apply nth_error_nth'; lia).
      assert (Hq : nth_error off (S k) = Some (nth (S k) off 0)) by (apply nth_error_nth'; lia).
      rewrite (rd_some _ _ _ Hp), (rd_some _ _ _ Hq). cbn [bind].
      set (p := nth k off 0) in *. set (q := nth (S k) off 0) in *.
      pose proof (Hoff _ _ _ Hp Hq) as Hpq.
      assert (HRk : R (ids P k ++ [k]) = R (ids P k) ++ [linkRow tT cT (adjRow off raw k)]).
      { unfold R, rows. rewrite map_app. reflexivity. }
      assert (Hfit : length (concat (R (ids P k ++ [k]))) <= length oR).
      { rewrite HoR. replace (ids P k ++ [k]) with (ids P (S k)) by (rewrite ids_S, Esp; reflexivity).
        unfold R. apply concat_rank_le. lia. }
      rewrite HRk, concat_snoc in *. rewrite app_length in Hfit.
      loop (fun j (st : nat * list (option nat)) =>
          let '(lr', r') := st in
          let row := linkRow tT cT (firstn j (adjRow off raw k)) in
          lr' = length (concat (R (ids P k))) + length row
          /\ r' = concat (R (ids P k)) ++ row ++ skipn lr' oR) as (lr', r') E (Hlr' & Hr').
      * lia.
      * cbn. split; [ lia | auto ].
      * intros j (lr', r') Hj (Hlr' & Hr').
        destruct (adjRow_nth off raw k p q j Hp Hq Hpq) as (Hrow & Hrl); [ lia | ].
        assert (Ha : nth_error raw (p + j) = Some (nth (p + j) raw None)) by (apply nth_error_nth'; lia).
        rewrite (rd_some _ _ _ Ha). cbn [bind]. rewrite Ha in Hrow.
        destruct (Hok (nth (p + j) raw None)) as (id & Hid & Hlt); [ eapply nth_error_In; eauto | ].
        rewrite Hid in *. rewrite (rd_ok cT id 0%N) by lia. cbn [bind]. rewrite <- (sp_rd tT cT id 0%N) by lia.
        rewrite (firstn_S_snoc _ _ _ Hrow), linkRow_snoc, !app_length. cbn [spLink].
        destruct (sp tT cT id) eqn:Et.
        -- assert (id <= m) by (apply (Hmx k p q (p + j)); auto; lia).
           pose proof (Hlutv id) as Hl. rewrite Et in Hl.
           rewrite (rd_some lut id (Some (rank (sp tT cT) id))) by (apply Hl; lia). cbn [bind].
           assert (Hlt' : lr' < length oR).
           { assert (length (linkRow tT cT (firstn (S j) (adjRow off raw k))) <= length (linkRow tT cT (adjRow off raw k))) as Hle.
             { rewrite <- (firstn_skipn (S j) (adjRow off raw k)) at 2. unfold linkRow. rewrite flat_map_app, app_length. lia. }
             rewrite (firstn_S_snoc _ _ _ Hrow), linkRow_snoc, app_length in Hle. cbn [spLink] in Hle. rewrite Et in Hle.
             simpl in Hle. lia. }
           destruct (skipn_cons _ _ Hlt') as (x & _ & Hsk).
           rewrite wr_ok by (rewrite Hr', !app_length, skipn_length; lia). cbn [bind].
           eexists; split; [ reflexivity | ]. simpl. split; [ lia | ].
           rewrite Hr', Hsk, app_assoc, upd_app_at by (rewrite app_length; lia).
           rewrite <- !app_assoc. simpl. repeat f_equal. replace (lr' + 1) with (S lr') by lia. reflexivity.
        -- eexists; split; [ reflexivity | ]. simpl. split; [ lia | ].
           rewrite app_nil_r. auto.
      * eexists; split; [ reflexivity | ].
        rewrite <- (adjRow_length off raw k p q Hp Hq Hpq), firstn_all in Hlr', Hr'.
        split; [ lia | ]. rewrite app_length. split; [ auto | ]. split.
        { rewrite Hr', app_assoc. reflexivity. }
        split; [ now rewrite length_upd | ].
        intros i Hi. rewrite nth_error_upd. destruct (Nat.eqb_spec spId i) as [->|Hne]; simpl.
        -- replace (i <? length pt) with true by (symmetry; apply Nat.ltb_lt; lia).
           rewrite Hlr. f_equal. unfold rowOff. f_equal. f_equal.
           assert (Hsplit : forall b, k <= b -> exists tl, R (ids P b) = R (ids P k) ++ tl).
           { induction 1 as [|b Hb (tl & IH)]; [ exists []; now rewrite app_nil_r | ].
             rewrite ids_S. unfold R, rows in *. rewrite map_app, IH, <- app_assoc. eauto. }
           destruct (Hsplit nEn) as (tl & ->); [ lia | ].
           assert (Hlen : length (R (ids P k)) = i) by (unfold R, rows; rewrite map_length; fold (rank P k); lia).
           rewrite firstn_app, Hlen, Nat.sub_diag, firstn_O, app_nil_r, <- Hlen, firstn_all. reflexivity.
        -- apply Hrows. lia.
    + eexists; split; [ reflexivity | ]. rewrite Nat.add_0_r, app_nil_r. auto.
  - rewrite wr_ok by lia. cbn [bind].
    exists (upd pt spId lr). split.
    { rewrite Hr. rewrite Hlr, <- HoR, skipn_all, app_nil_r. reflexivity. }
    split; [ rewrite length_upd; auto | ].
    intros i Hi. rewrite nth_error_upd. destruct (Nat.eqb_spec spId i) as [->|Hne]; simpl.
    + replace (i <? length pt) with true by (symmetry; apply Nat.ltb_lt; lia).
      rewrite Hlr. f_equal. unfold rowOff. f_equal. f_equal.
      rewrite firstn_all2; auto. unfold R, rows. rewrite map_length. fold (rank P nEn). lia.
    + apply Hrows. lia.
Qed.
