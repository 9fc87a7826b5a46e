(** C18-C21: sparse numbering, sparse counts, sparse adjacency, propagation of sparse types.
    Specification vocabulary (Sparse.v): [carries chars t i]: entity [i] carries all bits of type [t];
    [lists_ids P n D]: [D] lists in increasing order exactly the ids [d < n] with [P d];
    the sparse id of a dense entity is its position in that list. *)
From Coq Require Import Sorted.
From Verif Require Import Util Sparse.

(** helper: ids in a window *)
Lemma cnt_lists t chars a n D :
  lists_ids (fun d => a <= d /\ carries chars t d) (a + n) D -> length D = cnt t chars a n.
Proof.
  intros HD.
  assert (H : lists_ids (fun d => a <= d /\ carries chars t d) (a + n) (ids (fun d => (a <=? d) && sp t chars d) (a + n))).
  { apply ids_lists. intros d. rewrite andb_true_iff, Nat.leb_le, sp_carries. tauto. }
  rewrite (lists_ids_unique _ _ _ _ HD H). rewrite cnt_spec. unfold ids.
  rewrite seq_app, filter_app, app_length. simpl.
  replace (filter (fun d => (a <=? d) && sp t chars d) (seq 0 a)) with (@nil nat).
  - simpl. f_equal. apply filter_ext_in. intros d Hd. apply in_seq in Hd.
    replace (a <=? d) with true by (symmetry; apply Nat.leb_le; lia). reflexivity.
  - symmetry. rewrite <- (filter_ext_in (fun _ => false)).
    + induction (seq 0 a); auto.
    + intros d Hd. apply in_seq in Hd. replace (a <=? d) with false by (symmetry; apply Nat.leb_gt; lia). reflexivity.
Qed.

Lemma rank_lists t chars n D : lists_ids (carries chars t) n D -> length D = rank (sp t chars) n /\ D = ids (sp t chars) n.
Proof.
  intros H. assert (D = ids (sp t chars) n) as -> by (eapply lists_ids_eq; eauto; intros; apply sp_carries). auto.
Qed.

(** ** C18 *)

(** nSp counts the sparse entities *)
Theorem C18_nSp_counts : forall n t chars D,
  n <= length chars -> lists_ids (carries chars t) n D -> nSp n t chars = Ok (length D).
Proof.
  intros n t chars D Hn HD. destruct (rank_lists _ _ _ _ HD) as (-> & _). now apply nSp_ok.
Qed.
Print Assumptions C18_nSp_counts.

(** linkSpDe, given an output array of nSp entries, fills it with exactly the dense ids of the sparse
    entities in increasing order *)
Theorem C18_linkSpDe_bijection : forall n t chars k o,
  n <= length chars -> nSp n t chars = Ok k -> length o = k ->
  exists o', linkSpDe n t chars o = Ok o' /\ lists_ids (carries chars t) n o'.
Proof.
  intros n t chars k o Hn Hk Ho. rewrite nSp_ok in Hk by auto. inversion Hk as [Hk1]. rewrite <- Hk1 in Ho. clear Hk.
  eexists. rewrite linkSpDe_ok by lia. split; [ reflexivity | ].
  rewrite <- Ho, skipn_all, app_nil_r. apply ids_lists. intros; apply sp_carries.
Qed.
Print Assumptions C18_linkSpDe_bijection.

(** linkSpSp maps every entity sparse in the first type to its position among those sparse in the second, or invalid *)
Theorem C18_linkSpSp : forall n t0 t1 chars D0 D1 o,
  n <= length chars ->
  lists_ids (carries chars t0) n D0 -> lists_ids (carries chars t1) n D1 ->
  length o = length D0 ->
  exists o', linkSpSp n t0 t1 chars o = Ok o' /\ length o' = length D0 /\
    forall k d, nth_error D0 k = Some d ->
      (forall j, nth_error o' k = Some (Some j) <-> nth_error D1 j = Some d) /\
      (nth_error o' k = Some None <-> ~ carries chars t1 d).
Proof.
  intros n t0 t1 chars D0 D1 o Hn H0 H1 Ho.
  destruct (rank_lists _ _ _ _ H0) as (L0 & ->). destruct (rank_lists _ _ _ _ H1) as (L1 & ->).
  eexists. rewrite linkSpSp_ok by lia. split; [ reflexivity | ]. rewrite map_length. split; auto.
  intros k d Hk. rewrite (map_nth_error _ _ _ Hk). rewrite <- sp_carries.
  apply ids_nth_inv in Hk. destruct Hk as (Hd & _ & _).
  destruct (sp t1 chars d) eqn:E.
  - split; [ | split; [ discriminate | congruence ] ]. intros j. split.
    + intros Hj. inversion Hj; subst. now apply ids_nth_rank.
    + intros Hj. apply ids_nth_inv in Hj. destruct Hj as (_ & _ & ->). reflexivity.
  - split; [ | split; auto; discriminate ]. intros j. split; [ discriminate | ].
    intros Hj. apply ids_nth_inv in Hj. destruct Hj as (_ & Hj & _). congruence.
Qed.
Print Assumptions C18_linkSpSp.

Example C18_ex :
  nSp 5 2 [1; 2; 3; 0; 6]%N = Ok 3 /\
  linkSpDe 5 2 [1; 2; 3; 0; 6]%N [7; 7; 7] = Ok [1; 2; 4] /\
  linkSpSp 5 1 2 [1; 2; 3; 0; 6]%N [Some 9; Some 9] = Ok [None; Some 1].
Proof. repeat split. Qed.

(** ** C19 *)

(** denseToSparse: the inner/send region of every time group gets the number of its sparse entities.
    Inner regions of all groups come first, then the send regions. *)
Theorem C19_denseToSparse : forall nTgs t chars nIn nSe oIn oSe,
  length nIn = nTgs -> length nSe = nTgs -> length oIn = nTgs -> length oSe = nTgs ->
  list_sum nIn + list_sum nSe <= length chars ->
  exists oIn' oSe', denseToSparse nTgs t chars nIn nSe oIn oSe = Ok (oIn', oSe')
    /\ length oIn' = nTgs /\ length oSe' = nTgs
    /\ (forall tg n D, nth_error nIn tg = Some n ->
          let a := list_sum (firstn tg nIn) in
          lists_ids (fun d => a <= d /\ carries chars t d) (a + n) D ->
          nth_error oIn' tg = Some (length D))
    /\ (forall tg n D, nth_error nSe tg = Some n ->
          let a := list_sum nIn + list_sum (firstn tg nSe) in
          lists_ids (fun d => a <= d /\ carries chars t d) (a + n) D ->
          nth_error oSe' tg = Some (length D)).
Proof.
  intros nTgs t chars nIn nSe oIn oSe H1 H2 H3 H4 H5.
  assert (F1 : firstn nTgs nIn = nIn) by (rewrite <- H1; apply firstn_all).
  assert (F2 : firstn nTgs nSe = nSe) by (rewrite <- H2; apply firstn_all).
  destruct (denseToSparse_ok nTgs t chars nIn nSe oIn oSe) as (oIn' & oSe' & E & L1 & L2 & P1 & P2);
    try lia; [ rewrite F1, F2; lia | ].
  exists oIn', oSe'. repeat split; auto.
  - intros tg n D Hn a HD. rewrite (cnt_lists _ _ _ _ _ HD). apply P1; auto.
    rewrite <- H1. apply nth_error_Some. congruence.
  - intros tg n D Hn a HD. rewrite (cnt_lists _ _ _ _ _ HD). rewrite F1 in P2. apply P2; auto.
    rewrite <- H2. apply nth_error_Some. congruence.
Qed.
Print Assumptions C19_denseToSparse.

(** subRgnsSpId: for consecutive sub-regions starting at rgnFirst, the first sparse id of a sub-region is the
    number of sparse entities in front of it and its sparse size is the number of sparse entities inside *)
Theorem C19_subRgnsSpId : forall rgnFirst nSub sizes t chars oF oS,
  length sizes = nSub -> length oF = nSub -> length oS = nSub ->
  rgnFirst + list_sum sizes <= length chars ->
  exists oF' oS', subRgnsSpId rgnFirst nSub sizes t chars oF oS = Ok (oF', oS')
    /\ length oF' = nSub /\ length oS' = nSub
    /\ forall sr n D0 D, nth_error sizes sr = Some n ->
         let a := rgnFirst + list_sum (firstn sr sizes) in
         lists_ids (carries chars t) a D0 ->
         lists_ids (fun d => a <= d /\ carries chars t d) (a + n) D ->
         nth_error oF' sr = Some (length D0) /\ nth_error oS' sr = Some (length D).
Proof.
  intros rgnFirst nSub sizes t chars oF oS H1 H2 H3 H4.
  assert (F1 : firstn nSub sizes = sizes) by (rewrite <- H1; apply firstn_all).
  destruct (subRgnsSpId_ok rgnFirst nSub sizes t chars oF oS) as (oF' & oS' & E & L1 & L2 & P);
    try lia; [ rewrite F1; lia | ].
  exists oF', oS'. repeat split; auto;
    (destruct (P sr n) as (Pf & Pz); [ rewrite <- H1; apply nth_error_Some; congruence | auto | ]).
  - rewrite Pf. f_equal. destruct (rank_lists _ _ _ _ H0) as (-> & _). reflexivity.
  - rewrite Pz. f_equal. symmetry. eapply cnt_lists; eauto.
Qed.
Print Assumptions C19_subRgnsSpId.

Example C19_ex :
  denseToSparse 2 2 [2; 0; 2; 2; 1; 3]%N [1; 2] [2; 1] [9; 9] [9; 9] = Ok ([1; 1], [1; 1]) /\
  subRgnsSpId 1 2 [2; 3] 2 [2; 0; 2; 2; 1; 3]%N [9; 9] [9; 9] = Ok ([1; 2], [1; 2]).
Proof. split; reflexivity. Qed.

(** ** C20 *)

Definition valid_adj (n : nat) (tab : list (option nat)) : Prop :=
  forall i id, nth_error tab i = Some (Some id) -> id < n.

Lemma valid_adj_okid n tab : valid_adj n tab -> Forall (okid n) tab.
Proof.
  intros H. apply Forall_forall. intros [id|] Hin; simpl; auto.
  apply In_nth_error in Hin. destruct Hin as (i & Hi). eapply H; eauto.
Qed.

(** the sparse id stored for adjacent entity [a]: [Some j] iff [a] is the [j]-th sparse to-entity, invalid otherwise *)
Definition link_of (DT : list nat) (a : option nat) (v : option nat) : Prop :=
  match v with
  | Some j => exists id, a = Some id /\ nth_error DT j = Some id
  | None => forall id, a = Some id -> ~ In id DT
  end.

Lemma spLink_link_of t chars a n :
  okid n a -> n <= length chars -> link_of (ids (sp t chars) n) a (spLink t chars a).
Proof.
  destruct a as [id|]; simpl; intros Hok Hn.
  - destruct (sp t chars id) eqn:E; simpl.
    + exists id. split; auto. now apply ids_nth_rank.
    + intros id' Hid. inversion Hid; subst id'. rewrite in_ids. intros (_ & H). congruence.
  - intros id Hid. discriminate.
Qed.

(** double sparse type, flat: row [k] of the output belongs to the [k]-th sparse from-entity [DF[k]] and its
    [ae]-th entry is the sparse id of that entity's [ae]-th adjacent to-entity (or invalid) *)
Theorem C20_linkSpAdjDst : forall nEn nAdj tab tF tT cF cT DF DT o,
  0 < nAdj -> length tab = nEn * nAdj -> nEn <= length cF -> 0 < length cT -> valid_adj (length cT) tab ->
  lists_ids (carries cF tF) nEn DF -> lists_ids (carries cT tT) (length cT) DT ->
  length o = length DF * nAdj ->
  exists o', linkSpAdjDst nEn nAdj tab tF tT cF cT o = Ok o' /\ length o' = length o /\
    forall k de ae a, nth_error DF k = Some de -> ae < nAdj -> nth_error tab (de * nAdj + ae) = Some a ->
      exists v, nth_error o' (k * nAdj + ae) = Some v /\ link_of DT a v.
Proof.
  intros nEn nAdj tab tF tT cF cT DF DT o Hn Htab HcF HcT Hok HDF HDT Ho.
  destruct (rank_lists _ _ _ _ HDF) as (LF & ->). destruct (rank_lists _ _ _ _ HDT) as (LT & ->).
  apply valid_adj_okid in Hok.
  destruct (linkSpAdjDst_ok nEn nAdj tab tF tT cF cT o) as (o' & E & L & V); auto; try lia.
  exists o'. repeat split; auto. intros k de ae a Hk Hae Ha.
  apply ids_nth_inv in Hk. destruct Hk as (Hde & Hsp & ->).
  eexists. split; [ eapply V; eauto | ]. apply spLink_link_of; auto.
  rewrite Forall_forall in Hok. apply Hok. eapply nth_error_In; eauto.
Qed.
Print Assumptions C20_linkSpAdjDst.

(** single sparse type: the from-entities with a row are those with at least one valid adjacent to-entity of the type.
    Valid adjacent entities get their sparse id (or invalid).
    Partial: the C++ documentation promises the invalid id also where the adjacency is undefined, but there the code
    leaves the output array as it was ([C20_linkSpAdjSst_unset_refuted]). *)
Theorem C20_linkSpAdjSst_partial : forall nEn nAdj tab t cA DF DT o,
  0 < nAdj -> length tab = nEn * nAdj -> 0 < length cA -> valid_adj (length cA) tab ->
  lists_ids (fun de => exists ae id, ae < nAdj /\ nth_error tab (de * nAdj + ae) = Some (Some id) /\ carries cA t id) nEn DF ->
  lists_ids (carries cA t) (length cA) DT ->
  length o = length DF * nAdj ->
  exists o', linkSpAdjSst nEn nAdj tab t cA o = Ok o' /\ length o' = length o /\
    forall k de ae id, nth_error DF k = Some de -> ae < nAdj -> nth_error tab (de * nAdj + ae) = Some (Some id) ->
      exists v, nth_error o' (k * nAdj + ae) = Some v /\ link_of DT (Some id) v.
Proof.
  intros nEn nAdj tab t cA DF DT o Hn Htab HcA Hok HDF HDT Ho.
  assert (DF = ids (adjSp t cA tab nAdj) nEn) as ->.
  { eapply lists_ids_eq; [ | exact HDF ]. intros de. unfold adjSp. rewrite existsb_exists. split.
    - intros (ae & Hin & Hm). apply in_seq in Hin.
      destruct (nth_error tab (de * nAdj + ae)) as [[id|]|] eqn:E; try discriminate.
      exists ae, id. repeat split; auto; try lia. now apply sp_carries.
    - intros (ae & id & Hae & Hid & Hc). exists ae. split; [ apply in_seq; lia | ]. rewrite Hid. now apply sp_carries. }
  destruct (rank_lists _ _ _ _ HDT) as (LT & ->).
  apply valid_adj_okid in Hok.
  destruct (linkSpAdjSst_ok nEn nAdj tab t cA o) as (o' & E & L & V); auto; try lia.
  exists o'. repeat split; auto. intros k de ae id Hk Hae Ha.
  apply ids_nth_inv in Hk. destruct Hk as (Hde & Hsp & ->).
  eexists. split; [ rewrite (V de ae (Some id)); eauto | ]. apply spLink_link_of; auto.
  rewrite Forall_forall in Hok. apply Hok. eapply nth_error_In; eauto.
Qed.
Print Assumptions C20_linkSpAdjSst_partial.

(** Finding: the slot of an undefined adjacency of a linked entity keeps its previous content (here the
    non-invalid value 77), against the documented promise that it is set to the invalid id. *)
Theorem C20_linkSpAdjSst_unset_refuted :
  exists nEn nAdj tab t cA o o', linkSpAdjSst nEn nAdj tab t cA o = Ok o' /\
    length tab = nEn * nAdj /\ valid_adj (length cA) tab /\
    nth_error tab 1 = Some None /\ nth_error o' 1 = Some (Some 77).
Proof.
  exists 1, 2, [Some 0; None], 1%N, [1%N], [Some 77; Some 77], [Some 0; Some 77].
  repeat split. intros [|[|[|i]]] id H; simpl in H; inversion H; simpl; lia.
Qed.
Print Assumptions C20_linkSpAdjSst_unset_refuted.

(** variable-length adjacency.  [off] holds, per from-entity and with a ghost entry at the end, the offset of its first
    adjacent entity in [raw]. *)
Definition var_adj (nEn : nat) (off : list nat) (raw : list (option nat)) (nTo : nat) : Prop :=
  length off = S nEn /\
  (forall i p q, nth_error off i = Some p -> nth_error off (S i) = Some q -> p <= q <= length raw) /\
  (forall i a, nth_error raw i = Some a -> exists id, a = Some id /\ id < nTo).

(** [row] holds the sparse ids of the to-entities of the type among [l], in order *)
Fixpoint var_row (DT : list nat) (l row : list (option nat)) : Prop :=
  match l with
  | [] => row = []
  | None :: l' => False
  | Some id :: l' =>
      (~ In id DT /\ var_row DT l' row) \/
      (exists j row', nth_error DT j = Some id /\ row = Some j :: row' /\ var_row DT l' row')
  end.

Lemma linkRow_var_row t chars l :
  Forall (valid_id (length chars)) l -> var_row (ids (sp t chars) (length chars)) l (linkRow t chars l).
Proof.
  induction l as [|a l IH]; intros H; simpl; auto. inversion H as [|? ? Ha Hl]; subst.
  destruct Ha as (id & -> & Hid). simpl. destruct (sp t chars id) eqn:E.
  - right. exists (rank (sp t chars) id). eexists. split; [ now apply ids_nth_rank | ]. split; [ reflexivity | auto ].
  - left. split; auto. rewrite in_ids. intros (_ & H'). congruence.
Qed.

Lemma In_skipn {A} (l : list A) n x : In x (skipn n l) -> In x l.
Proof. revert n; induction l as [|y l IH]; intros [|n]; simpl; auto. right. eapply IH; eauto. Qed.

Lemma In_firstn {A} (l : list A) n x : In x (firstn n l) -> In x l.
Proof. revert n; induction l as [|y l IH]; intros [|n]; simpl; auto; try tauto. intros [|]; auto. right; eapply IH; eauto. Qed.

Lemma adjRow_In {A} off (raw : list A) de x : In x (adjRow off raw de) -> In x raw.
Proof. unfold adjRow. intros H. apply In_firstn in H. now apply In_skipn in H. Qed.

(** nLinkSpAdjDst announces the sizes of the two output arrays; linkSpAdjDst with arrays of these sizes stores, for the
    [k]-th sparse from-entity, exactly the sparse ids of its adjacent to-entities of the type between its pointer and the next *)
Theorem C20_linkSpAdjDst_variable : forall nEn off raw tF tT cF cT DF DT,
  nEn <= length cF -> 0 < length cT -> var_adj nEn off raw (length cT) ->
  lists_ids (carries cF tF) nEn DF -> lists_ids (carries cT tT) (length cT) DT ->
  exists nRaw, nLinkSpAdjDst nEn raw off tF tT cF cT = Ok (nRaw, length DF) /\
  forall oR oP, length oR = nRaw -> length oP = S (length DF) ->
  exists oR' oP', linkSpAdjDstPtr nEn raw off tF tT cF cT oR oP = Ok (oR', oP') /\
    length oR' = nRaw /\ nth_error oP' (length DF) = Some nRaw /\
    forall k de, nth_error DF k = Some de ->
      exists p q p' q', nth_error off de = Some p /\ nth_error off (S de) = Some q /\
        nth_error oP' k = Some p' /\ nth_error oP' (S k) = Some q' /\ p' <= q' /\
        var_row DT (firstn (q - p) (skipn p raw)) (firstn (q' - p') (skipn p' oR')).
Proof.
  intros nEn off raw tF tT cF cT DF DT HcF HcT (Hlo & Hoff & Hids) HDF HDT.
  destruct (rank_lists _ _ _ _ HDF) as (LF & ->). destruct (rank_lists _ _ _ _ HDT) as (LT & ->).
  assert (Hval : Forall (valid_id (length cT)) raw).
  { apply Forall_forall. intros a Ha. apply In_nth_error in Ha. destruct Ha as (i & Hi). exact (Hids _ _ Hi). }
  assert (Hok : offsets_ok nEn off raw) by (split; auto).
  eexists. split; [ apply nLinkSpAdjDst_ok; auto | ].
  intros oR oP HoR HoP. set (R := rows tT cT off raw (ids (sp tF cF) nEn)) in *.
  destruct (linkSpAdjDstPtr_ok nEn raw off tF tT cF cT oR oP) as (oP' & E & LP & V); auto.
  fold R in E, V. exists (concat R), oP'. split; auto. split; auto.
  assert (HRl : length R = rank (sp tF cF) nEn) by (unfold R, rows; now rewrite map_length).
  split. { change (length (ids (sp tF cF) nEn)) with (rank (sp tF cF) nEn). rewrite V by lia.
           unfold rowOff. rewrite firstn_all2 by lia. reflexivity. }
  intros k de Hk. pose proof Hk as Hk0. apply ids_nth_inv in Hk. destruct Hk as (Hde & Hsp & Hkr).
  assert (Hklt : k < rank (sp tF cF) nEn) by (rewrite Hkr; now apply rank_lt).
  exists (nth de off 0), (nth (S de) off 0), (rowOff R k), (rowOff R (S k)).
  assert (HRk : nth_error R k = Some (linkRow tT cT (adjRow off raw de))).
  { unfold R, rows. exact (map_nth_error (fun de => linkRow tT cT (adjRow off raw de)) _ _ Hk0). }
  split. { apply nth_error_nth'; lia. } split. { apply nth_error_nth'; lia. }
  split. { apply V. lia. } split. { apply V. lia. }
  assert (HS : rowOff R (S k) = rowOff R k + length (linkRow tT cT (adjRow off raw de))).
  { unfold rowOff. rewrite (firstn_S_snoc _ _ _ HRk), concat_snoc, app_length. reflexivity. }
  split; [ lia | ].
  replace (firstn (rowOff R (S k) - rowOff R k) (skipn (rowOff R k) (concat R)))
    with (linkRow tT cT (adjRow off raw de)).
  - apply linkRow_var_row. apply Forall_forall. rewrite Forall_forall in Hval.
    intros a Ha. apply Hval. eapply adjRow_In; eauto.
  - rewrite <- (firstn_skipn k R) at 4. rewrite concat_app. rewrite skipn_app.
    fold (rowOff R k). rewrite Nat.sub_diag. rewrite skipn_all2 by (unfold rowOff; lia). simpl.
    destruct (skipn_cons k R) as (x & Hx & ->); [ lia | ].
    rewrite HRk in Hx. inversion Hx; subst x. cbn [concat].
    rewrite firstn_app, HS. replace (rowOff R k + length (linkRow tT cT (adjRow off raw de)) - rowOff R k)
      with (length (linkRow tT cT (adjRow off raw de))) by lia.
    rewrite firstn_all, Nat.sub_diag, firstn_O, app_nil_r. reflexivity.
Qed.
Print Assumptions C20_linkSpAdjDst_variable.

(** the tables of the C++ documentation (SparseEntities.hpp:570-588 and 689-707) *)
Example C20_ex_flat :
  linkSpAdjDst 11 2 (map Some [1;4; 5;3; 9;7; 8;3; 2;1; 2;6; 3;8; 0;4; 9;2; 4;1; 4;9]) 1 1
    [0;1;1;1;1;0;1;0;1;0;0]%N [0;0;1;1;0;1;0;0;0;1]%N (repeat (Some 77) 12)
  = Ok [Some 2; Some 1; Some 3; None; None; Some 1; Some 0; None; Some 1; None; Some 3; Some 0].
Proof. vm_compute. reflexivity. Qed.

Example C20_ex_variable :
  let off := [0; 2; 6; 9; 14; 16; 20; 22; 24; 29; 33; 35] in
  let raw := map Some [1;4; 8;5;0;3; 8;7;4; 8;3;6;7;8; 2;1; 2;6;5;3; 3;8; 0;4; 9;2;5;3;7; 4;1;9;8; 4;9] in
  nLinkSpAdjDst 11 raw off 1 1 [0;1;1;1;1;0;1;0;1;0;0]%N [0;0;1;1;0;1;0;0;0;1]%N = Ok (9, 6) /\
  linkSpAdjDstPtr 11 raw off 1 1 [0;1;1;1;1;0;1;0;1;0;0]%N [0;0;1;1;0;1;0;0;0;1]%N (repeat None 9) (repeat 0 7)
  = Ok ([Some 2; Some 1; Some 1; Some 0; Some 1; Some 3; Some 0; Some 2; Some 1], [0; 2; 2; 3; 4; 5; 9]).
Proof. vm_compute. split; reflexivity. Qed.

(** ** C21 *)

(** inherit: exactly the entities below nEn carrying tIn get the bits of tOut in addition; nothing else changes *)
Theorem C21_inherit : forall n tIn tOut chars,
  n <= length chars ->
  exists chars', inherit n tIn tOut chars = Ok chars' /\ length chars' = length chars /\
    forall i c, nth_error chars i = Some c ->
      exists c', nth_error chars' i = Some c' /\
        forall b, N.testbit c' b = true <->
          (N.testbit c b = true \/ (i < n /\ carries chars tIn i /\ N.testbit tOut b = true)).
Proof.
  intros n tIn tOut chars Hn. destruct (inherit_ok n tIn tOut chars Hn) as (l & E & L & H).
  exists l. repeat split; auto. intros i c Hc. specialize (H i). rewrite Hc in H. eexists; split; [ exact H | ].
  intros b. assert (Hca : carries chars tIn i <-> has c tIn = true).
  { rewrite <- sp_carries. unfold sp. rewrite Hc. tauto. }
  rewrite Hca. destruct (Nat.ltb_spec i n) as [Hi|Hi]; simpl.
  - destruct (has c tIn) eqn:Eh.
    + rewrite N.lor_spec, orb_true_iff. intuition.
    + intuition congruence.
  - intuition lia.
Qed.
Print Assumptions C21_inherit.

Lemma marked_bits chars1 tOut hit l :
  marked chars1 tOut hit l ->
  length l = length chars1 /\
  forall j c, nth_error chars1 j = Some c ->
    exists c', nth_error l j = Some c' /\
      forall b, N.testbit c' b = true <-> (N.testbit c b = true \/ (hit j /\ N.testbit tOut b = true)).
Proof.
  intros (L & H). split; auto. intros j c Hc. destruct (H j c Hc) as [[Hh Hl]|[Hh Hl]]; eexists; (split; [ exact Hl | ]); intros b.
  - rewrite N.lor_spec, orb_true_iff. intuition.
  - intuition.
Qed.

(** propAdj, flat adjacency: exactly the entities adjacent to an entity carrying tIn get tOut in addition *)
Theorem C21_propAdj_flat : forall nEn0 nPer tab tIn tOut chars0 chars1,
  nEn0 <= length chars0 -> length tab = nEn0 * nPer -> valid_adj (length chars1) tab ->
  exists l', propAdjFlat nEn0 nPer tab tIn tOut chars0 chars1 = Ok l' /\ length l' = length chars1 /\
  forall j c, nth_error chars1 j = Some c ->
    exists c', nth_error l' j = Some c' /\
      forall b, N.testbit c' b = true <->
        (N.testbit c b = true \/
         ((exists en ae, en < nEn0 /\ carries chars0 tIn en /\ ae < nPer /\ nth_error tab (en * nPer + ae) = Some (Some j))
          /\ N.testbit tOut b = true)).
Proof.
  intros nEn0 nPer tab tIn tOut chars0 chars1 H0 Ht Hok. apply valid_adj_okid in Hok.
  destruct (propAdjFlat_ok nEn0 nPer tab tIn tOut chars0 chars1) as (l' & E & M); auto; try lia.
  exists l'. split; auto. apply (marked_bits _ _ _ _ M).
Qed.
Print Assumptions C21_propAdj_flat.

(** propAdj, variable-length adjacency *)
Theorem C21_propAdj_variable : forall nEn0 raw off tIn tOut chars0 chars1,
  nEn0 <= length chars0 -> length off = S nEn0 ->
  (forall i p q, nth_error off i = Some p -> nth_error off (S i) = Some q -> p <= q <= length raw) ->
  valid_adj (length chars1) raw ->
  exists l', propAdjPtr nEn0 raw off tIn tOut chars0 chars1 = Ok l' /\ length l' = length chars1 /\
  forall j c, nth_error chars1 j = Some c ->
    exists c', nth_error l' j = Some c' /\
      forall b, N.testbit c' b = true <->
        (N.testbit c b = true \/
         ((exists en p q i, en < nEn0 /\ carries chars0 tIn en /\ nth_error off en = Some p /\
             nth_error off (S en) = Some q /\ p <= i < q /\ nth_error raw i = Some (Some j))
          /\ N.testbit tOut b = true)).
Proof.
  intros nEn0 raw off tIn tOut chars0 chars1 H0 Hl Hoff Hok. apply valid_adj_okid in Hok.
  destruct (propAdjPtr_ok nEn0 raw off tIn tOut chars0 chars1) as (l' & E & M); auto; [ split; auto | ].
  exists l'. split; auto. apply (marked_bits _ _ _ _ M).
Qed.
Print Assumptions C21_propAdj_variable.

Example C21_ex :
  inherit 2 1 4 [1; 2; 1]%N = Ok [5; 2; 1]%N /\
  propAdjFlat 3 2 [Some 0; None; Some 1; Some 2; Some 2; Some 0] 1 4 [0; 1; 1]%N [8; 8; 8; 8]%N = Ok [12; 12; 12; 8]%N /\
  propAdjPtr 2 [Some 0; Some 3; Some 1] [0; 2; 3] 1 4 [0; 1]%N [8; 8; 8; 8]%N = Ok [8; 12; 8; 8]%N.
Proof. vm_compute. repeat split. Qed.
