(** Proofs about the normalization of hexahedra, and the normalization of elements of every type. *)
From Coq Require Import QArith Qabs Sorting.Sorted Sorting.Permutation Lqa.
From Verif Require Import Util Partition MeshConn MeshSort MeshNorm MeshSpec MeshNormEl MeshTypes.
Open Scope nat_scope.

Section Hex.
Variable srt : forall A : Type, (A -> A -> bool) -> list A -> list A.
Hypothesis SRT : isSort srt.
Variable tol : Q.
Hypothesis TOL : (0 < tol)%Q.

(** ** Order of the vertices *)

Definition ord (k : nat) : nat := 4 * cornerZ k + 2 * cornerY k + cornerX k.

Lemma corner_bits k : cornerX k <= 1 /\ cornerY k <= 1 /\ cornerZ k <= 1.
Proof. do 8 (destruct k as [|k]; [cbn; lia|]). cbn. destruct k; cbn; lia. Qed.

Lemma ord_cmp k l : (ord k <? ord l) =
  if cornerZ k <? cornerZ l then true else if cornerZ l <? cornerZ k then false
  else if cornerY k <? cornerY l then true else if cornerY l <? cornerY k then false else cornerX k <? cornerX l.
Proof.
  unfold ord. destruct (corner_bits k) as (A & B & C), (corner_bits l) as (A' & B' & C').
  destruct (Nat.ltb_spec (cornerZ k) (cornerZ l)); [apply Nat.ltb_lt; lia|].
  destruct (Nat.ltb_spec (cornerZ l) (cornerZ k)); [apply Nat.ltb_ge; lia|].
  destruct (Nat.ltb_spec (cornerY k) (cornerY l)); [apply Nat.ltb_lt; lia|].
  destruct (Nat.ltb_spec (cornerY l) (cornerY k)); [apply Nat.ltb_ge; lia|].
  destruct (Nat.ltb_spec (cornerX k) (cornerX l)); [apply Nat.ltb_lt; lia|apply Nat.ltb_ge; lia].
Qed.

Lemma below_neg a b : below tol b a -> Qltb tol (b - a)%Q = false /\ Qltb (Qabs (b - a)) tol = false.
Proof.
  unfold below. intros H. split; apply Qltb_ge; [lra|]. rewrite Qabs_Qminus. pose proof (Qle_Qabs (a - b)). lra.
Qed.
Lemma level_tab a b : level tol a b -> Qltb tol (b - a)%Q = false /\ Qltb (Qabs (b - a)) tol = true.
Proof.
  unfold level. intros H. split; [apply Qltb_ge; pose proof (Qle_Qabs (b - a)); lra|apply Qltb_lt; auto].
Qed.
Lemma below_pos a b : below tol a b -> Qltb tol (b - a)%Q = true.
Proof. intros H. apply Qltb_lt. exact H. Qed.

Lemma veLess_ord crds (c : list pt) (ps : list nat) i j k l : placed tol crds HEX8R ps -> k < 8 -> l < 8 ->
  nth i c (0, 0, 0)%Q = xyz crds (nth k ps 0) -> nth j c (0, 0, 0)%Q = xyz crds (nth l ps 0) ->
  veLess tol c i j = (ord k <? ord l).
Proof.
  intros [_ Pl] Hk Hl Ei Ej. rewrite ord_cmp. unfold veLess. cbv zeta. rewrite Ei, Ej.
  destruct (Pl k l Hk Hl) as (A1 & A2 & A3 & A4 & A5). destruct (Pl l k Hl Hk) as (B1 & B2 & B3 & B4 & B5).
  cbv zeta in *. set (a := nth k ps 0) in *. set (b := nth l ps 0) in *.
  fold (Z crds a) (Z crds b) (Y crds a) (Y crds b) (X crds a) (X crds b).
  assert (Eab : k = l -> a = b) by (intros Ekl; unfold a, b; rewrite Ekl; reflexivity). clearbody a b.
  destruct (Nat.ltb_spec (cornerZ k) (cornerZ l)) as [Hz|Hz].
  - rewrite (below_pos _ _ (A1 Hz)). reflexivity.
  - destruct (Nat.ltb_spec (cornerZ l) (cornerZ k)) as [Hz'|Hz'].
    + destruct (below_neg _ _ (B1 Hz')) as [-> ->]. reflexivity.
    + assert (Ez : cornerZ k = cornerZ l) by lia. destruct (level_tab _ _ (A2 Ez)) as [-> ->]. cbn [andb].
      destruct (Nat.ltb_spec (cornerY k) (cornerY l)) as [Hy|Hy].
      * rewrite (below_pos _ _ (A3 Ez Hy)). reflexivity.
      * destruct (Nat.ltb_spec (cornerY l) (cornerY k)) as [Hy'|Hy'].
        -- destruct (below_neg _ _ (B3 (eq_sym Ez) Hy')) as [-> ->]. reflexivity.
        -- assert (Ey : cornerY k = cornerY l) by lia. destruct (level_tab _ _ (A4 Ez Ey)) as [-> ->]. cbn [andb].
           destruct (Nat.ltb_spec (cornerX k) (cornerX l)) as [Hx|Hx]; [apply (below_pos _ _ (A5 Ez Ey Hx))|].
           destruct (Nat.eq_dec k l) as [->|N].
           ++ rewrite (Eab eq_refl). apply Qltb_ge. lra.
           ++ assert (Hx' : cornerX l < cornerX k).
              { destruct (corner_bits k) as (Q1 & _), (corner_bits l) as (Q2 & _).
                destruct (Nat.eq_dec (cornerX k) (cornerX l)) as [Ex|Ex]; [exfalso|lia]. apply N. clear - Hk Hl Ez Ey Ex.
                do 8 (destruct k as [|k]; [do 8 (destruct l as [|l]; [cbn in *; try reflexivity; discriminate|]); lia|]). lia. }
              destruct (below_neg _ _ (B5 (eq_sym Ez) (eq_sym Ey) Hx')) as [-> _]. reflexivity.
Qed.

Definition so : list nat := [0; 1; 3; 2; 4; 5; 7; 6].

Lemma hex_sorted lv less : Permutation lv (seq 0 8) ->
  (forall k l, k < 8 -> l < 8 -> less (nth k lv 0) (nth l lv 0) = (ord k <? ord l)) ->
  srt nat less (seq 0 8) = pick 0 lv so.
Proof.
  intros P H. assert (L : length lv = 8) by (rewrite (Permutation_length P); reflexivity).
  assert (Hin : forall x, In x (seq 0 8) -> exists k, k < 8 /\ x = nth k lv 0).
  { intros x Hx. eapply Permutation_in in Hx; [|apply Permutation_sym; exact P]. apply (In_nth _ _ 0) in Hx.
    destruct Hx as (k & Hk & <-). exists k. split; auto; lia. }
  destruct (SRT nat less (seq 0 8)) as [P1 S1].
  { split.
    - intros a b Ha Hb. destruct (Hin a Ha) as (k & Hk & ->), (Hin b Hb) as (l & Hl & ->). rewrite !H by auto.
      rewrite Nat.ltb_lt, Nat.ltb_ge. lia.
    - intros a b c Ha Hb Hc. destruct (Hin a Ha) as (k & Hk & ->), (Hin b Hb) as (l & Hl & ->), (Hin c Hc) as (o & Ho & ->).
      rewrite !H by auto. rewrite !Nat.ltb_ge. lia. }
  apply (sorted_perm_unique (fun a b => less b a = false)); auto.
  - intros a b Ha Hb. eapply Permutation_in in Ha, Hb; try (apply Permutation_sym; exact P1).
    destruct (Hin a Ha) as (k & Hk & ->), (Hin b Hb) as (l & Hl & ->). rewrite !H by auto. rewrite !Nat.ltb_ge. intros H1 H2.
    f_equal. assert (E : ord k = ord l) by lia. clear - E Hk Hl.
    do 8 (destruct k as [|k]; [do 8 (destruct l as [|l]; [cbn in *; try reflexivity; discriminate|]); lia|]). lia.
  - unfold pick. assert (G : forall q, Forall (fun k => k < 8) q -> StronglySorted (fun a b => ord a <= ord b) q ->
      StronglySorted (fun a b => less b a = false) (map (fun i => nth i lv 0) q)).
    { induction q as [|k q IH]; intros F S; cbn [map]; [constructor|]. inversion F; subst. apply StronglySorted_inv in S. destruct S as [S Fs].
      constructor; auto. apply Forall_forall. intros x Hx. apply in_map_iff in Hx. destruct Hx as (l & <- & Hl).
      rewrite Forall_forall in Fs. rewrite Forall_forall in H3. rewrite H by auto. apply Nat.ltb_ge. auto. }
    apply G; unfold so; repeat constructor.
  - eapply perm_trans; [apply Permutation_sym; exact P1|]. eapply perm_trans; [apply Permutation_sym; exact P|].
    apply pick_perm. rewrite L. change (seq 0 8) with (sortNat so). apply sortNat_perm.
Qed.

(** ** Order of the faces *)

Lemma sortLex_ok rows nv : (forall r, In r rows -> length r = nv) ->
  exists p, sortLex srt rows = Ok (pick [] rows p, p) /\ Permutation p (seq 0 (length rows)) /\
    StronglySorted (fun a b => lexLt b a = false) (pick [] rows p).
Proof.
  intros L. unfold sortLex. set (less := fun a b => lexLt (nth a rows []) (nth b rows [])).
  assert (Ln : forall i, In i (seq 0 (length rows)) -> length (nth i rows []) = nv).
  { intros i Hi. apply in_seq in Hi. apply L. apply nth_In. lia. }
  destruct (SRT nat less (seq 0 (length rows))) as [P S].
  { split; intros a b; unfold less; [intros _ _; apply lexLt_asym|]. intros c Ha Hb Hc. apply lexLt_weak; rewrite !Ln; auto. }
  set (p := srt nat less (seq 0 (length rows))) in *. exists p. split; [|split].
  - rewrite (mapM_map _ (fun i => nth i rows [])); [reflexivity|]. intros i Hi. apply rd_ok.
    eapply Permutation_in in Hi; [|apply Permutation_sym; exact P]. apply in_seq in Hi. lia.
  - apply Permutation_sym. exact P.
  - clear P. unfold pick. induction S as [|a l S IH F]; cbn [map]; constructor; auto.
    rewrite Forall_forall in F. apply Forall_forall. intros x Hx. apply in_map_iff in Hx. destruct Hx as (i & <- & Hi). apply F. exact Hi.
Qed.

(** scatter *)
Lemma scatter_ok n (fa : list nat) (ad : list (option nat)) mp : length fa = n -> length ad = n -> Permutation mp (seq 0 n) ->
  exists fa' ad', for_ 0 n (fun i s =>
     let '(faN, adN) := s in
     id <- rd mp i ;; f <- rd fa i ;; a <- rd ad i ;;
     faN <- wr faN id f ;; adN <- wr adN id a ;; Ok (faN, adN)) (fa, ad) = Ok (fa', ad') /\
    length fa' = n /\ length ad' = n /\
    forall i, i < n -> nth_error fa' (nth i mp 0) = nth_error fa i /\ nth_error ad' (nth i mp 0) = nth_error ad i.
Proof.
  intros L1 L2 P. assert (Lm : length mp = n) by (rewrite (Permutation_length P), seq_length; auto).
  assert (ND : NoDup mp) by (eapply Permutation_NoDup; [apply Permutation_sym; exact P|apply seq_NoDup]).
  assert (B : forall i, i < n -> nth i mp 0 < n).
  { intros i Hi. assert (In (nth i mp 0) (seq 0 n)) by (eapply Permutation_in; [exact P|apply nth_In; lia]). apply in_seq in H. lia. }
  match goal with |- exists fa' ad', for_ 0 n ?body ?s0 = _ /\ _ =>
    destruct (for_ok (fun k s => length (fst s) = n /\ length (snd s) = n /\
      forall i, i < k -> nth_error (fst s) (nth i mp 0) = nth_error fa i /\ nth_error (snd s) (nth i mp 0) = nth_error ad i) 0 n body s0)
      as ((fa' & ad') & E & I1 & I2 & I3) end.
  - lia.
  - cbn [fst snd]. split; [auto|]. split; [auto|]. intros; lia.
  - intros k (fN, aN) Hk (I1 & I2 & I3). cbn [fst snd] in *.
    rewrite (rd_ok mp k 0), (rd_ok fa k 0), (rd_ok ad k None) by lia. cbn [bind].
    assert (Bk := B k ltac:(lia)). rewrite wr_ok by lia. cbn [bind]. rewrite wr_ok by lia. cbn [bind].
    eexists. split; [reflexivity|]. cbn [fst snd]. rewrite !length_upd. split; [auto|]. split; [auto|]. intros i Hi.
    destruct (Nat.eq_dec i k) as [->|N].
    + rewrite !nth_error_upd_eq by lia. split; symmetry; apply nth_error_nth'; lia.
    + rewrite !nth_error_upd_ne; [apply I3; lia|..]; intros X; apply N; symmetry; eapply (proj1 (NoDup_nth mp 0)); eauto; lia.
  - cbn [fst snd] in *. exists fa', ad'. split; auto.
Qed.

Lemma nth_error_pick {A} (d : A) l q i : i < length q -> nth_error (pick d l q) i = Some (nth (nth i q 0) l d).
Proof. intros H. unfold pick. rewrite nth_error_map, (nth_error_nth' q 0 H). reflexivity. Qed.

(** A list scattered by [mp] is a permutation. *)
Lemma scatter_perm {A} (l l' : list A) mp : length l' = length l -> Permutation mp (seq 0 (length l)) ->
  (forall i, i < length l -> nth_error l' (nth i mp 0) = nth_error l i) -> Permutation l l'.
Proof.
  intros L P H. destruct l as [|d l0] eqn:El; [destruct l'; [constructor|discriminate]|]. rewrite <- El in *. clear El l0.
  assert (E : pick d l' mp = l).
  { apply nth_error_ext'. intros i. assert (Lm : length mp = length l) by (rewrite (Permutation_length P), seq_length; auto).
    destruct (lt_dec i (length l)) as [Hi|Hi].
    - rewrite nth_error_pick by lia. rewrite <- H by auto.
      assert (B : nth i mp 0 < length l').
      { assert (In (nth i mp 0) (seq 0 (length l))) by (eapply Permutation_in; [exact P|apply nth_In; lia]). apply in_seq in H0. lia. }
      symmetry. apply nth_error_nth'. auto.
    - rewrite (proj2 (nth_error_None l i)) by lia. apply nth_error_None. unfold pick. rewrite map_length. lia. }
  rewrite <- E. apply Permutation_sym. apply pick_perm. rewrite L. exact P.
Qed.

(** ** Hexahedra *)

Lemma nth_map' {A B} (f : A -> B) l i d d' : i < length l -> nth i (map f l) d' = f (nth i l d).
Proof. intros H. rewrite <- (map_nth f). apply nth_indep. rewrite map_length. exact H. Qed.

Lemma nth_pick {A} (d : A) l q i : i < length q -> nth i (pick d l q) d = nth (nth i q 0) l d.
Proof. intros H. unfold pick. exact (nth_map' (fun i => nth i l d) q i 0 d H). Qed.

Lemma normHex8r_ok crds faVe ve fa ad ps lv :
  placed tol crds HEX8R ps -> Permutation lv (seq 0 8) -> length ve = 8 -> ps = pick 0 ve lv ->
  length fa = 6 -> length ad = 6 ->
  StronglySorted (fun a b => lexLt b a = false) (map (fun f => nth f faVe []) fa) ->
  Permutation (map (fun f => nth f faVe []) fa) (facesOf HEX8R ps) ->
  exists fa' ad', normHex8r srt tol (map (xyz crds) ve) (ve, fa, ad) = Ok (ps, fa', ad') /\
    length fa' = 6 /\ length ad' = 6 /\ Permutation (combine fa ad) (combine fa' ad') /\
    map (fun f => nth f faVe []) fa' = facesOf HEX8R ps.
Proof.
  intros Pl P Lv Eps L1 L2 S K. assert (Ll : length lv = 8) by (rewrite (Permutation_length P); reflexivity).
  assert (Bl : forall k, k < 8 -> nth k lv 0 < 8).
  { intros k Hk. assert (In (nth k lv 0) (seq 0 8)) by (eapply Permutation_in; [exact P|apply nth_In; lia]). apply in_seq in H. lia. }
  unfold normHex8r. rewrite (hex_sorted lv (veLess tol (map (xyz crds) ve)) P).
  2:{ intros k l Hk Hl. apply (veLess_ord crds _ ps); auto.
      - rewrite (nth_map' _ _ _ 0) by (rewrite Lv; auto). f_equal. rewrite Eps, nth_pick by lia. reflexivity.
      - rewrite (nth_map' _ _ _ 0) by (rewrite Lv; auto). f_equal. rewrite Eps, nth_pick by lia. reflexivity. }
  assert (Esw : (sorted <- swap 2 3 (pick 0 lv so) ;; swap 6 7 sorted) = Ok lv).
  { destruct lv as [|v0 [|v1 [|v2 [|v3 [|v4 [|v5 [|v6 [|v7 [|]]]]]]]]]; try discriminate. reflexivity. }
  apply bind_ok in Esw. destruct Esw as (s1 & E1 & E2). rewrite E1. cbn [bind]. rewrite E2. cbn [bind].
  rewrite (mapM_map _ (fun i => nth i ve 0)).
  2:{ intros i Hi. apply rd_ok. eapply Permutation_in in Hi; [|exact P]. apply in_seq in Hi. lia. }
  cbn [bind]. fold (pick 0 ve lv). rewrite <- Eps. assert (Lp : length ps = 8) by apply Pl.
  rewrite (mapM_map _ (fun r => sortNat (map (fun i => nth i ps 0) r))).
  2:{ intros r Hr. rewrite (mapM_map _ (fun i => nth i ps 0)); [reflexivity|]. intros i Hi. apply rd_ok.
      destruct (refFaces_shape HEX8R r Hr) as [_ F]. rewrite Forall_forall in F. rewrite Lp. apply F; auto. }
  cbn [bind]. change (map (fun r => sortNat (map (fun i => nth i ps 0) r)) hexFaces) with (facesOf HEX8R ps).
  destruct (sortLex_ok (facesOf HEX8R ps) 4) as (mp & Em & Pm & Sm); [intros r Hr; apply (facesOf_len HEX8R ps); auto|].
  rewrite Em. cbn [bind]. assert (Lf : length (facesOf HEX8R ps) = 6) by reflexivity. rewrite Lf in Pm.
  assert (Lm : length mp = 6) by (rewrite (Permutation_length Pm); reflexivity).
  destruct (scatter_ok 6 fa ad mp L1 L2 Pm) as (fa' & ad' & Es & L1' & L2' & T). rewrite Es. cbn [bind].
  exists fa', ad'. split; [reflexivity|]. split; [auto|]. split; [auto|]. split.
  - apply (scatter_perm _ _ mp).
    + rewrite !combine_length. lia.
    + rewrite combine_length. replace (Nat.min (length fa) (length ad)) with 6 by lia. exact Pm.
    + intros i Hi. rewrite combine_length in Hi. rewrite !nth_error_comb by lia. destruct (T i) as [-> ->]; auto. lia.
  - assert (Ks : map (fun f => nth f faVe []) fa = pick [] (facesOf HEX8R ps) mp).
    { apply (lex_unique 4); auto.
      - intros x Hx. apply (facesOf_len HEX8R ps). eapply Permutation_in; eauto.
      - eapply perm_trans; [exact K|]. apply pick_perm. exact Pm. }
    apply nth_error_ext'. intros j. destruct (lt_dec j 6) as [Hj|Hj].
    + assert (Hin : In j mp) by (eapply Permutation_in; [apply Permutation_sym; exact Pm|apply in_seq; lia]).
      apply (In_nth _ _ 0) in Hin. destruct Hin as (i & Hi & <-). rewrite Lm in Hi. rewrite nth_error_map.
      destruct (T i Hi) as [-> _]. rewrite <- (nth_error_map (fun f => nth f faVe [])). rewrite Ks. rewrite nth_error_pick by lia.
      symmetry. apply nth_error_nth'. lia.
    + rewrite (proj2 (nth_error_None (facesOf HEX8R ps) j)) by lia. apply nth_error_None. rewrite map_length. lia.
Qed.

(** ** All types *)

Lemma keys_sorted (faVe : list (list nat)) fa : (forall i j, i < j -> j < length fa -> lexLt (keyAt faVe fa i) (keyAt faVe fa j) = true) ->
  StronglySorted (fun a b => lexLt b a = false) (map (fun f => nth f faVe []) fa).
Proof.
  induction fa as [|f fa IH]; intros H; cbn [map]; constructor.
  - apply IH. intros i j Hij Hj. apply (H (S i) (S j)); cbn [length]; lia.
  - apply Forall_forall. intros x Hx. apply in_map_iff in Hx. destruct Hx as (f' & <- & Hf). apply (In_nth _ _ 0) in Hf.
    destruct Hf as (j & Hj & <-). apply lexLt_asym. apply (H 0 (S j)); cbn [length]; lia.
Qed.

Lemma pick_pick {A} (d : A) l q q' : (forall i, In i q' -> i < length q) -> pick d (pick d l q) q' = pick d l (pick 0 q q').
Proof.
  intros H. unfold pick. rewrite map_map. apply map_ext_in. intros i Hi. specialize (H i Hi).
  rewrite (nth_indep _ d (nth 0 l d)) by (rewrite map_length; auto). rewrite (map_nth (fun i => nth i l d)). reflexivity.
Qed.

Lemma facesOf_NoDup_tri ty ps : NoDup ps -> length ps = nElVes ty -> NoDup (facesOf ty ps).
Proof.
  intros ND L.
  assert (P0 : Permutation (sortNat ps) ps) by (apply Permutation_sym, sortNat_perm).
  assert (NDs : NoDup (sortNat ps)) by (eapply Permutation_NoDup; [apply sortNat_perm|exact ND]).
  destruct (perm_index (sortNat ps) ps NDs P0) as (lv & P & E). rewrite sortNat_length, L in P. rewrite E.
  assert (M := sorted_mono ps ND). rewrite L in M. rewrite (facesOf_map ty _ lv M P).
  assert (Inj : forall a b, In a (facesOf ty lv) -> In b (facesOf ty lv) -> map (fun i => nth i (sortNat ps) 0) a = map (fun i => nth i (sortNat ps) 0) b -> a = b).
  { intros a b Ha Hb. assert (Fa := facesOf_lt ty lv a P Ha). assert (Fb := facesOf_lt ty lv b P Hb). clear Ha Hb.
    revert b Fb. induction a as [|x a IH]; intros [|y b] Fb Hm; cbn [map] in Hm; try discriminate; auto.
    inversion Fa; inversion Fb; subst. injection Hm as Hx Hm. f_equal; [|apply IH; auto].
    destruct (lt_eq_lt_dec x y) as [[Hl|Hl]|Hl]; auto; exfalso; [specialize (M x y Hl)|specialize (M y x Hl)]; cbv beta in M; lia. }
  assert (NDi : NoDup (facesOf ty lv)).
  { (* different sets of positions; positions are pairwise different *)
    assert (NDl : NoDup lv) by (eapply Permutation_NoDup; [apply Permutation_sym; exact P|apply seq_NoDup]).
    assert (Ll : length lv = nElVes ty) by (rewrite (Permutation_length P), seq_length; auto).
    unfold facesOf. assert (Fr := refFaces_shape ty).
    assert (Q : forall r r', In r (refFaces ty) -> In r' (refFaces ty) ->
       sortNat (map (fun i => nth i lv 0) r) = sortNat (map (fun i => nth i lv 0) r') -> forall i, In i r -> In i r').
    { intros r r' Hr Hr' Hs i Hi. destruct (Fr r Hr) as [_ F]. destruct (Fr r' Hr') as [_ F']. rewrite Forall_forall in F, F'.
      assert (Hin : In (nth i lv 0) (map (fun i => nth i lv 0) r')).
      { eapply Permutation_in; [apply Permutation_sym, sortNat_perm|]. rewrite <- Hs. eapply Permutation_in; [apply sortNat_perm|].
        apply (in_map (fun i => nth i lv 0)). auto. }
      apply in_map_iff in Hin. destruct Hin as (j & Ej & Hj). replace i with j; auto.
      eapply (proj1 (NoDup_nth lv 0)); eauto; rewrite Ll; auto. }
    assert (D : forall r r', In r (refFaces ty) -> In r' (refFaces ty) -> (forall i, In i r -> In i r') -> r = r').
    { clear. intros r r' Hr Hr' H.
      assert (H' : forallb (fun i => existsb (Nat.eqb i) r') r = true).
      { apply forallb_forall. intros i Hi. apply existsb_exists. exists i. split; auto. apply Nat.eqb_refl. }
      clear H. destruct ty; cbn [refFaces In] in Hr, Hr';
      repeat (destruct Hr as [<-|Hr]; [repeat (destruct Hr' as [<-|Hr']; [first [reflexivity|discriminate]|]); destruct Hr'|]); destruct Hr. }
    assert (NDr : NoDup (refFaces ty)) by (destruct ty; repeat constructor; cbn; intuition discriminate).
    clear - Q D NDr. revert Q D NDr. generalize (refFaces ty). intros R Q D ND. induction ND as [|r R Nr ND IH]; cbn [map]; constructor.
    - intros Hin. apply in_map_iff in Hin. destruct Hin as (r' & Es & Hr'). apply Nr. replace r with r'; auto.
      apply D; cbn; auto. apply Q; cbn; auto.
    - apply IH.
      + intros r1 r2 H1 H2. apply Q; right; auto.
      + intros r1 r2 H1 H2. apply D; right; auto. }
  clear - Inj NDi. induction NDi as [|k l Nk ND IH]; cbn [map]; constructor.
  - intros Hin. apply in_map_iff in Hin. destruct Hin as (k' & Ek & Hk). apply Nk. replace k with k'; auto. apply Inj; cbn; auto.
  - apply IH. intros; apply Inj; cbn; auto.
Qed.
End Hex.
