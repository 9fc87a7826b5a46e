(** From the tables of the pre-processing to the tables of the solver: proofs. *)
From Coq Require Import List Arith Bool ZArith Lia.
From Verif Require Import Util Comm SubGrid IbWriterV ScInit ScInitSpec.
Import ListNotations.
Open Scope nat_scope.

(** ** Text *)
Section Csv.
  Variable (F V : Type) (zero : V) (conv : F -> res V).
  Notation dim := (dim F). Notation blank := (blank F).
  Lemma write2d_id t : write2d F t = t.
  Proof. unfold write2d. induction t as [|r t IH]; [reflexivity|]. cbn. now rewrite IH. Qed.
  Lemma dim_rows m : 0 < m -> forall t d1, (forall r, In r t -> length r = m) -> 0 < d1 -> fold_left dim t (m, d1, 0) = (m, d1 + length t, 0).
  Proof.
    intros Hm. induction t as [|r t IH]; intros d1 R D; [cbn; now rewrite Nat.add_0_r|]. cbn [fold_left].
    assert (E : dim (m, d1, 0) r = (m, d1 + 1, 0)). { unfold ScInit.dim. destruct (Nat.eqb_spec d1 0) as [->|_]; [lia|]. assert (L := R r (or_introl eq_refl)). destruct r; [cbn in L; lia|]. reflexivity. }
    rewrite E, IH; [|intros; apply R; now right|lia]. cbn [length]. f_equal. f_equal. lia.
  Qed.
  Lemma dim_rows0 m t : 0 < m -> 0 < length t -> (forall r, In r t -> length r = m) -> fold_left dim t (0, 0, 0) = (m, length t, 0).
  Proof.
    intros Hm L R. destruct t as [|r t]; [cbn in L; lia|]. cbn [fold_left]. assert (Lr := R r (or_introl eq_refl)).
    assert (E : dim (0, 0, 0) r = (m, 1, 0)) by (unfold ScInit.dim; cbn [Nat.eqb]; destruct r; [cbn in Lr; lia|]; rewrite Lr; reflexivity).
    rewrite E, dim_rows; auto. intros; apply R; now right.
  Qed.
  Lemma dim_later m d1 : 0 < m -> 0 < d1 -> forall t d2, (forall r, In r t -> length r = m) -> 0 < d2 -> fold_left dim t (m, d1, d2) = (m, d1, d2).
  Proof.
    intros Hm Hd. induction t as [|r t IH]; intros d2 R D; [reflexivity|]. cbn [fold_left].
    assert (E : dim (m, d1, d2) r = (m, d1, d2)). { unfold ScInit.dim. destruct (Nat.eqb_spec d1 0) as [->|_]; [lia|]. destruct (Nat.eqb_spec d2 0) as [->|_]; [lia|]. assert (L := R r (or_introl eq_refl)). destruct r; [cbn in L; lia|]. cbn. reflexivity. }
    rewrite E. apply IH; auto. intros; apply R; now right.
  Qed.
  Lemma dim_blank m d1 d2 : 0 < d1 -> dim (m, d1, d2) [] = (m, d1, d2 + 1).
  Proof. intros H. unfold ScInit.dim. destruct (Nat.eqb_spec d1 0) as [->|_]; [lia|]. reflexivity. Qed.
  Lemma dim_blocks m n : 0 < m -> 0 < n -> forall t d2, (forall b, In b t -> table2 n m b) -> 0 < d2 -> fold_left dim (write3d F t) (m, n, d2) = (m, n, d2 + length t).
  Proof.
    intros Hm Hn. induction t as [|b t IH]; intros d2 R D; [cbn; now rewrite Nat.add_0_r|]. unfold write3d in *. cbn [flat_map]. fold (write2d F b). rewrite write2d_id, !fold_left_app. destruct (R b (or_introl eq_refl)) as (_ & Rb).
    rewrite dim_later by auto. cbn [fold_left]. rewrite dim_blank by auto. rewrite IH; [|intros; apply R; now right|lia]. cbn [length]. f_equal. lia.
  Qed.
  Lemma dim_blocks0 m n t : 0 < m -> 0 < n -> 0 < length t -> (forall b, In b t -> table2 n m b) -> fold_left dim (write3d F t) (0, 0, 0) = (m, n, length t).
  Proof.
    intros Hm Hn L R. destruct t as [|b t]; [cbn in L; lia|]. destruct (R b (or_introl eq_refl)) as (Lb & Rb). unfold write3d. cbn [flat_map]. fold (write2d F b). rewrite write2d_id, !fold_left_app. rewrite (dim_rows0 m) by (auto; lia). cbn [fold_left]. rewrite dim_blank by lia.
    fold (write3d F t). rewrite Lb, dim_blocks by (auto; intros; apply R; now right). cbn [length]. f_equal.
  Qed.
  Lemma block_app b f : block F (length b) (b ++ f) = (b, f).
  Proof. induction b as [|l b IH]; [reflexivity|]. cbn [length block app readline]. rewrite IH. reflexivity. Qed.
  Lemma blocks_3d n : forall t, (forall b, In b t -> length b = n) -> blocks F true (length t) n (write3d F t) = t.
  Proof.
    induction t as [|b t IH]; intros R; [reflexivity|]. unfold write3d in *. cbn [flat_map length blocks]. fold (write2d F b). rewrite write2d_id. rewrite <- app_assoc. assert (E := R b (or_introl eq_refl)). rewrite <- E at 1. rewrite block_app. cbn [app readline snd]. rewrite IH; [reflexivity|]. intros; apply R; now right.
  Qed.
  (** rows which fit are converted entry by entry *)
  Lemma rows_conv (g : F -> V) m : forall t, (forall r, In r t -> length r = m) -> (forall r v, In r t -> In v r -> conv v = Ok (g v)) -> mapM (initRow F V zero conv m) t = Ok (map (map g) t).
  Proof.
    assert (M : forall r, (forall v, In v r -> conv v = Ok (g v)) -> mapM conv r = Ok (map g r)).
    { induction r as [|v r IH]; intros H; [reflexivity|]. cbn [mapM map]. rewrite (H v (or_introl eq_refl)). cbn [bind]. rewrite IH by (intros; apply H; now right). reflexivity. }
    induction t as [|r t IH]; intros R C; [reflexivity|]. cbn [mapM map]. unfold initRow at 1. rewrite (R r (or_introl eq_refl)), Nat.leb_refl. cbn [check bind]. rewrite M by (intros; eapply C; [now left|auto]). cbn [bind]. rewrite map_length, (R r (or_introl eq_refl)), Nat.sub_diag. cbn [repeat]. rewrite app_nil_r.
    rewrite IH; [reflexivity|intros; apply R; now right|intros; eapply C; [right; eassumption|auto]].
  Qed.
  Lemma convert2 (g : F -> V) n m t : 0 < n -> 0 < m -> table2 n m t -> (forall r v, In r t -> In v r -> conv v = Ok (g v)) -> convert F V zero conv (write2d F t) = Ok (concat (map (map g) t), n * m).
  Proof.
    intros Hn Hm (L & R) C. unfold convert. rewrite write2d_id, (dim_rows0 m) by (auto; lia). rewrite L. destruct (Nat.ltb_spec 0 m); [|lia]. destruct (Nat.ltb_spec 0 n); [|lia]. cbn [check bind Nat.ltb Nat.leb Nat.max blocks].
    rewrite <- L. rewrite <- (app_nil_r t) at 2. rewrite block_app. cbn [concat]. rewrite app_nil_r, (rows_conv g) by auto. cbn [bind]. f_equal. f_equal. lia.
  Qed.
  Lemma convert3 (g : F -> V) k n m t : 0 < k -> 0 < n -> 0 < m -> table3 k n m t -> (forall b r v, In b t -> In r b -> In v r -> conv v = Ok (g v)) -> convert F V zero conv (write3d F t) = Ok (concat (map (map g) (concat t)), k * n * m).
  Proof.
    intros Hk Hn Hm (L & R) C. unfold convert. rewrite (dim_blocks0 m n) by (auto; lia). rewrite L. destruct (Nat.ltb_spec 0 m); [|lia]. destruct (Nat.ltb_spec 0 n); [|lia]. destruct (Nat.ltb_spec 0 k); [|lia]. cbn [check bind]. replace (Nat.max k 1) with k by lia. rewrite <- L at 1. rewrite blocks_3d by (intros b Hb; apply (R b Hb)).
    rewrite (rows_conv g m); [cbn [bind]; f_equal; f_equal; lia| |].
    - intros r Hr. apply in_concat in Hr. destruct Hr as (b & Hb & Hr). apply (R b Hb); auto.
    - intros r v Hr Hv. apply in_concat in Hr. destruct Hr as (b & Hb & Hr). eauto.
  Qed.
End Csv.

(** ** Copies *)
Section Copy.
  Variable (V : Type) (raw : list V).
  (** [inner] reads [k] entries and gives what they encode *)
  Definition reads {A} (inner : nat -> A -> res (nat * A)) (shape : A -> Prop) (enc : A -> list V) (k : nat) : Prop :=
    forall pre suf old new, raw = pre ++ enc new ++ suf -> shape old -> shape new -> inner (length pre) old = Ok (length pre + k, new).
  Lemma over_reads {A} (inner : nat -> A -> res (nat * A)) (shape : A -> Prop) (enc : A -> list V) k n : (forall x, shape x -> length (enc x) = k) -> reads inner shape enc k -> reads (over inner n) (fun l => length l = n /\ forall x, In x l -> shape x) (flat_map enc) (n * k).
  Proof.
    intros W R pre suf old new E (Lo & So) (Ln & Sn). unfold over, for_. rewrite Nat.sub_0_r.
    assert (X : forall news olds dn pre, length olds = length news -> (forall x, In x olds -> shape x) -> (forall x, In x news -> shape x) -> raw = pre ++ flat_map enc news ++ suf ->
      for_n (length news) (length dn) (fun i st => r <- rd (snd st) i ;; x <- inner (fst st) r ;; o <- wr (snd st) i (snd x) ;; Ok (fst x, o)) (length pre, dn ++ olds) = Ok (length pre + length news * k, dn ++ news)).
    { clear - R W. induction news as [|a news IH]; intros olds dn pre L So Sn E; destruct olds as [|b olds]; try discriminate L; [cbn; now rewrite Nat.add_0_r|]. cbn [for_n length fst snd].
      rewrite (rd_some _ _ b) by (rewrite nth_error_app2, Nat.sub_diag by lia; reflexivity). cbn [bind flat_map] in *. rewrite <- app_assoc in E. rewrite (R pre (flat_map enc news ++ suf) b a); [|exact E|apply So; now left|apply Sn; now left]. cbn [bind fst snd].
      rewrite wr_ok by (rewrite app_length; cbn; lia). cbn [bind]. rewrite upd_app_cons. replace (dn ++ a :: olds) with ((dn ++ [a]) ++ olds) by (now rewrite <- app_assoc). replace (S (length dn)) with (length (dn ++ [a])) by (rewrite app_length; cbn; lia).
      assert (K := W a (Sn a (or_introl eq_refl))). replace (length pre + k) with (length (pre ++ enc a)) by (rewrite app_length; lia).
      rewrite IH; [|now injection L|intros; apply So; now right|intros; apply Sn; now right|now rewrite <- app_assoc]. rewrite app_length, <- app_assoc, K. cbn [app]. f_equal. f_equal. lia. }
    specialize (X new old [] pre). cbn [length app] in X. rewrite Ln in X. apply X; auto; lia.
  Qed.
  Lemma cell_reads : reads (cell V raw) (fun _ => True) (fun x => [x]) 1.
  Proof. intros pre suf old new E _ _. unfold cell. rewrite (rd_some _ _ new); [reflexivity|]. rewrite E, nth_error_app2, Nat.sub_diag by lia. reflexivity. Qed.
  Lemma single {A} (l : list A) : flat_map (fun x => [x]) l = l. Proof. induction l; [reflexivity|]. cbn. now rewrite IHl. Qed.
  Lemma row_reads m : reads (over (cell V raw) m) (fun l => length l = m) (fun l => l) m.
  Proof. intros pre suf old new E So Sn. assert (H := over_reads (cell V raw) (fun _ => True) (fun x => [x]) 1 m (fun _ _ => eq_refl) cell_reads pre suf old new). cbv beta in H. rewrite single, Nat.mul_1_r in H. apply H; auto. Qed.
  Lemma copy2_ok n m o t : raw = concat t -> table2 n m o -> table2 n m t -> copy2 V raw n m o = Ok t.
  Proof.
    intros E So St. unfold copy2. assert (H := over_reads (over (cell V raw) m) (fun l => length l = m) (fun l => l) m n (fun x H => H) (row_reads m) [] [] o t). cbv beta in H. cbn [length app] in H. rewrite H; [reflexivity| |exact So|exact St]. rewrite E, flat_map_concat_map, map_id. now rewrite app_nil_r.
  Qed.
  Lemma copy3_ok k n m o t : raw = concat (concat t) -> table3 k n m o -> table3 k n m t -> copy3 V raw k n m o = Ok t.
  Proof.
    intros E So St. unfold copy3. assert (W : forall x : list (list V), length x = n /\ (forall r, In r x -> length r = m) -> length (flat_map (fun l => l) x) = n * m) by (intros x (L & R); rewrite flat_map_concat_map, map_id, (concat_len x m) by auto; now rewrite L).
    assert (H := over_reads _ _ _ (n * m) k W (over_reads (over (cell V raw) m) (fun l => length l = m) (fun l => l) m n (fun x H => H) (row_reads m)) [] [] o t). cbv beta in H. cbn [length app] in H. rewrite H; [reflexivity| |exact So|exact St].
    rewrite E, app_nil_r. clear. induction t as [|b t IH]; [reflexivity|]. cbn [concat flat_map]. rewrite concat_app, IH. f_equal.
  Qed.
End Copy.

(** every array of the right size is a table *)
Lemma chunk {A} m : forall n (raw : list A), length raw = n * m -> exists t, raw = concat t /\ table2 n m t.
Proof.
  induction n as [|n IH]; intros raw L; [exists []; destruct raw; [|cbn in L; lia]; repeat split; auto; intros r []|].
  destruct (IH (skipn m raw)) as (t & E & (Lt & R)); [rewrite skipn_length; cbn in L; lia|]. exists (firstn m raw :: t). split; [cbn [concat]; now rewrite <- E, firstn_skipn|]. split; [cbn; lia|]. intros r [<-|H]; [rewrite firstn_length; cbn in L; lia|auto].
Qed.

(** ** Sub-cells at the faces *)
Lemma entry_rd2 {A} (t : list (list A)) i j v : entry t i j v -> rd2 t i j = Ok v.
Proof. intros (r & H1 & H2). eapply rd2_some; eauto. Qed.
Lemma rd2_entry {A} (t : list (list A)) i j v : rd2 t i j = Ok v -> entry t i j v.
Proof. unfold rd2. intros H. apply bind_ok in H. destruct H as (r & H1 & H2). exists r. split; apply rd_inv; auto. Qed.
Lemma entry_ex {A} n m (t : list (list A)) i j : table2 n m t -> i < n -> j < m -> exists v, entry t i j v.
Proof. intros (L & R) Hi Hj. destruct (nth_ex t i) as (r & Hr); [lia|]. destruct (nth_ex r j) as (v & Hv); [rewrite (R r (nth_error_In _ _ Hr)); auto|]. exists v, r. auto. Qed.
Lemma entry_fun {A} (t : list (list A)) i j v w : entry t i j v -> entry t i j w -> v = w.
Proof. intros (r & H1 & H2) (r' & H3 & H4). congruence. Qed.

(** loops which go on or stop the program, the latter only if [G] does not hold *)
Lemma for_either {S} (I : nat -> S -> Prop) (G : Prop) lo hi body s : lo <= hi -> I lo s ->
  (forall i s, lo <= i < hi -> I i s -> (exists s', body i s = Ok s' /\ I (i + 1) s') \/ (body i s = Er Echeck /\ ~ G)) ->
  (exists s', for_ lo hi body s = Ok s' /\ I hi s') \/ (for_ lo hi body s = Er Echeck /\ ~ G).
Proof.
  intros L. unfold for_. remember (hi - lo) as n eqn:En. revert lo s L En. induction n as [|n IH]; intros lo s L En I0 B; [left; exists s; split; [reflexivity|]; replace hi with lo by lia; auto|]. cbn [for_n].
  destruct (B lo s ltac:(lia) I0) as [(s' & E & I1)|(E & NG)]; rewrite E; cbn [bind]; [|right; auto]. replace (Datatypes.S lo) with (lo + 1) by lia. apply IH; auto; try lia. intros i t Hi Ht. apply B; auto. lia.
Qed.

Lemma getFa_ok nFas nSfs nScs t o : 0 < nFas -> table2 (nScs + nFas * nSfs) nFas t -> table2 nFas nSfs o ->
  (exists fa', getFaSfSc nFas nSfs nScs t o = Ok fa' /\ table2 nFas nSfs fa' /\ ghostsOk umax nFas nSfs nScs t /\ forall fa sf, fa < nFas -> sf < nSfs -> exists v, entry t (nScs + fa * nSfs + sf) 0 v /\ entry fa' fa sf v) \/
  (getFaSfSc nFas nSfs nScs t o = Er Echeck /\ ~ ghostsOk umax nFas nSfs nScs t).
Proof.
  intros Hn T O. set (done := fun fa sf o => exists v, entry t (nScs + fa * nSfs + sf) 0 v /\ v <> umax /\ (forall f2, 1 <= f2 < nFas -> entry t (nScs + fa * nSfs + sf) f2 umax) /\ entry o fa sf v). unfold getFaSfSc.
  match goal with |- context [for_ 0 nFas ?b o] => destruct (for_either (fun f1 o => table2 nFas nSfs o /\ forall fa sf, fa < f1 -> sf < nSfs -> done fa sf o) (ghostsOk umax nFas nSfs nScs t) 0 nFas b o) as [(fa' & E & T' & D)|(E & NG)] end.
  - lia.
  - split; [exact O|]. intros; lia.
  - intros f1 o1 Hf (T1 & D1). match goal with |- context [for_ 0 nSfs ?b o1] => destruct (for_either (fun k o => table2 nFas nSfs o /\ forall fa sf, (fa < f1 /\ sf < nSfs \/ fa = f1 /\ sf < k) -> done fa sf o) (ghostsOk umax nFas nSfs nScs t) 0 nSfs b o1) as [(o2 & E & T2 & D2)|(E & NG)] end.
    + lia.
    + split; [exact T1|]. intros fa sf [(H1 & H2)|(_ & H)]; [auto|lia].
    + intros sf o2 Hs (T2 & D2). set (gh := nScs + f1 * nSfs + sf). assert (Hg : gh < nScs + nFas * nSfs) by (unfold gh; nia).
      destruct (entry_ex _ _ t gh 0 T Hg Hn) as (v & Hv). rewrite (entry_rd2 _ _ _ _ Hv). cbn [bind]. destruct T2 as (L2 & R2). destruct (nth_ex o2 f1) as (r & Hr); [lia|]. rewrite (rd_some _ _ _ Hr). cbn [bind]. assert (Lr := R2 r (nth_error_In _ _ Hr)). rewrite wr_ok by lia. cbn [bind]. rewrite wr_ok by lia. cbn [bind].
      destruct (Z.eqb_spec v umax) as [Ev|Nv]; cbn [negb check bind].
      { right. split; [reflexivity|]. intros G. destruct (G f1 sf ltac:(lia) ltac:(lia)) as ((w & Hw & Nw) & _). apply Nw. rewrite (entry_fun _ _ _ _ _ Hw Hv). exact Ev. }
      match goal with |- context [for_ 1 nFas ?b tt] => destruct (for_either (fun k (_ : unit) => forall f2, 1 <= f2 < k -> entry t gh f2 umax) (ghostsOk umax nFas nSfs nScs t) 1 nFas b tt) as [([] & E & I)|(E & NG)] end.
      * lia.
      * intros; lia.
      * intros f2 [] H2 I. destruct (entry_ex _ _ t gh f2 T Hg ltac:(lia)) as (w & Hw). rewrite (entry_rd2 _ _ _ _ Hw). cbn [bind]. destruct (Z.eqb_spec w umax) as [->|Nw]; cbn [check].
        { left. exists tt. split; [reflexivity|]. intros k Hk. destruct (Nat.eq_dec k f2) as [->|]; [auto|apply I; lia]. }
        { right. split; [reflexivity|]. intros G. destruct (G f1 sf ltac:(lia) ltac:(lia)) as (_ & G2). apply Nw. exact (entry_fun _ _ _ _ _ Hw (G2 f2 ltac:(lia))). }
      * rewrite E. cbn [bind]. left. eexists. split; [reflexivity|]. split.
        { split; [now rewrite length_upd|]. intros x Hx. apply In_nth_error in Hx. destruct Hx as (k & Hk). destruct (Nat.eq_dec k f1) as [->|Nk]; [rewrite nth_error_upd_eq in Hk by lia; injection Hk as <-; now rewrite length_upd|]. rewrite nth_error_upd_ne in Hk by auto. apply R2. eapply nth_error_In; eauto. }
        intros fa sf' H. destruct (Nat.eq_dec fa f1) as [->|Nf]; [destruct (Nat.eq_dec sf' sf) as [->|Ns]|].
        { exists v. repeat split; auto. exists (upd r sf v). split; [apply nth_error_upd_eq; lia|apply nth_error_upd_eq; lia]. }
        { destruct (D2 f1 sf') as (w & A & B & C & (r' & Hr' & Hw)); [right; lia|]. exists w. repeat split; auto. exists (upd r sf v). split; [apply nth_error_upd_eq; lia|]. rewrite nth_error_upd_ne by auto. congruence. }
        { destruct (D2 fa sf') as (w & A & B & C & (r' & Hr' & Hw)); [left; lia|]. exists w. repeat split; auto. exists r'. split; [rewrite nth_error_upd_ne by auto; exact Hr'|exact Hw]. }
      * rewrite E. right. split; [reflexivity|exact NG].
    + left. exists o2. split; [exact E|]. split; [exact T2|]. intros fa sf H1 H2. apply D2. lia.
    + right. split; [exact E|exact NG].
  - left. exists fa'. split; [exact E|]. split; [exact T'|]. split.
    + intros fa sf Hf Hs. destruct (D fa sf Hf Hs) as (v & A & B & C & _). split; [exists v; auto|exact C].
    + intros fa sf Hf Hs. destruct (D fa sf Hf Hs) as (v & A & _ & _ & B). exists v. auto.
  - right. auto.
Qed.

(** ** Connectivity *)
Lemma connect_ok nDis nVesFa nVesEl nFas nSfs nScs sv sc ty ad o : let n := nScs + nFas * nSfs in 0 < nFas -> shaped nDis nVesFa nVesEl nFas nSfs nScs o ->
  table2 n nVesEl sv -> table2 n nFas sc -> table2 nScs nFas ty -> table2 (nOr nDis nVesFa) nSfs ad ->
  let g := {| g_scsv := (concat sv, n * nVesEl); g_scsfsc := (concat sc, n * nFas); g_sctysf := (concat ty, nScs * nFas); g_scdgad := (concat ad, nOr nDis nVesFa * nSfs) |} in
  (exists fa, connect nDis nVesFa nVesEl nFas nSfs nScs g o = Ok {| scSv := sv; scSfSc := sc; faSfSc := fa; scTySf := ty; scDgAd := ad |} /\ table2 nFas nSfs fa /\ ghostsOk umax nFas nSfs nScs sc /\ forall f sf, f < nFas -> sf < nSfs -> exists v, entry sc (nScs + f * nSfs + sf) 0 v /\ entry fa f sf v) \/
  (connect nDis nVesFa nVesEl nFas nSfs nScs g o = Er Echeck /\ ~ ghostsOk umax nFas nSfs nScs sc).
Proof.
  intros n Hn (O1 & O2 & O3 & O4 & O5) T1 T2 T4 T5 g. unfold connect. fold n. cbn [g g_scsv g_scsfsc g_sctysf g_scdgad fst snd]. rewrite !Nat.eqb_refl. cbn [check bind]. rewrite (copy2_ok _ _ _ _ _ sv) by auto. cbn [bind]. rewrite (copy2_ok _ _ _ _ _ sc) by auto. cbn [bind].
  destruct (getFa_ok nFas nSfs nScs sc (faSfSc o) Hn T2 O3) as [(fa & E & T & G & D)|(E & NG)]; rewrite E; cbn [bind]; [left|right; auto]. rewrite (copy2_ok _ _ _ _ _ ty) by auto. cbn [bind]. rewrite (copy2_ok _ _ _ _ _ ad) by auto. cbn [bind]. exists fa. auto.
Qed.
