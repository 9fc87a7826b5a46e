(** Conversion of the stiffness and flux matrices and generation of the kernels for fused simulations. *)
From Coq Require Import Ring.
From Verif Require Import Util MeshConn MatMul Props_Mat MatSparse Props_MatSparse Ader AderSpec AderV AderGen MmXsmm XsmmSpec FakeMats AderFu CscV FuSpec.

(** *** Lists and loops *)
Lemma for_map {X} n (body : nat -> list X -> res (list X)) (Q : nat -> X -> Prop) acc : (forall i l, i < n -> exists c, body i l = Ok (l ++ [c]) /\ Q i c) ->
  exists cs, for_ 0 n body acc = Ok (acc ++ cs) /\ length cs = n /\ forall i, i < n -> exists c, nth_error cs i = Some c /\ Q i c.
Proof.
  intros H. destruct (for_ok (fun k l => exists cs, l = acc ++ cs /\ length cs = k /\ forall i, i < k -> exists c, nth_error cs i = Some c /\ Q i c) 0 n body acc) as (l & E & cs & -> & Lc & V).
  - lia.
  - exists []. split; [now rewrite app_nil_r|]. split; [auto|]. intros; lia.
  - intros k l Hk (cs & -> & Lc & V). destruct (H k (acc ++ cs) ltac:(lia)) as (c & E & q). rewrite E. eexists. split; [reflexivity|]. exists (cs ++ [c]).
    split; [now rewrite app_assoc|]. split; [rewrite app_length; cbn; lia|]. intros i Hi. destruct (Nat.eq_dec i k) as [->|N].
    + exists c. split; [|auto]. rewrite nth_error_app2 by lia. now rewrite Lc, Nat.sub_diag.
    + rewrite nth_error_app1 by lia. apply V. lia.
  - exists cs. auto.
Qed.

Lemma rd_some {X} (l : list X) i x : nth_error l i = Some x -> rd l i = Ok x.
Proof. unfold rd. intros ->. reflexivity. Qed.

Lemma nth_error_skp {X} (l : list X) n i : nth_error (skipn n l) i = nth_error l (n + i).
Proof. revert l. induction n as [|n IH]; intros [|x l]; cbn; auto. destruct i; auto. Qed.

(** *** Groups of kernels *)
Lemma xAdd_grp {X} g (k : X) ks : exists ks', xAdd g k ks = Ok ks' /\ forall h, nth h ks' [] = if h =? g then nth g ks [] ++ [k] else nth h ks [].
Proof.
  unfold xAdd. set (ks1 := if length ks <=? g then ks ++ repeat [] (g + 1 - length ks) else ks).
  assert (L1 : g < length ks1) by (unfold ks1; destruct (Nat.leb_spec (length ks) g); rewrite ?app_length, ?repeat_length; lia).
  assert (V1 : forall h, nth h ks1 [] = nth h ks []).
  { intros h. unfold ks1. destruct (Nat.leb_spec (length ks) g); [|reflexivity]. destruct (Nat.lt_ge_cases h (length ks)); [now rewrite app_nth1|].
    rewrite app_nth2, nth_repeat, (nth_overflow ks) by lia. reflexivity. }
  rewrite (rd_ok _ _ []) by auto. cbn [bind]. rewrite wr_ok by auto. eexists. split; [reflexivity|]. intros h. destruct (Nat.eqb_spec h g) as [->|N].
  - rewrite nth_upd_eq by auto. now rewrite V1.
  - rewrite nth_upd_ne by auto. apply V1.
Qed.
Lemma xKern_grp {X} (ks : list (list X)) g i k : nth_error (nth g ks []) i = Some k -> xKern ks g i = Ok k.
Proof.
  intros H. unfold xKern. destruct (Nat.lt_ge_cases g (length ks)) as [L|L].
  - rewrite (rd_ok _ _ []) by auto. cbn [bind]. now apply rd_some.
  - rewrite nth_overflow in H by auto. destruct i; discriminate.
Qed.
Lemma addKernels {X Y} (F : X -> Y) (mats : list X) b g n ks : b + n <= length mats ->
  exists ks', for_ 0 n (fun i ks => s <- rd mats (b + i);; xAdd g (F s) ks) ks = Ok ks' /\
    forall h, nth h ks' [] = if h =? g then nth g ks [] ++ map F (firstn n (skipn b mats)) else nth h ks [].
Proof.
  intros Hn. destruct (for_ok (fun k ks' => forall h, nth h ks' [] = if h =? g then nth g ks [] ++ map F (firstn k (skipn b mats)) else nth h ks []) 0 n
    (fun i ks => s <- rd mats (b + i);; xAdd g (F s) ks) ks) as (ks' & E & V).
  - lia.
  - intros h. cbn. rewrite app_nil_r. destruct (Nat.eqb_spec h g) as [->|]; reflexivity.
  - intros k ks1 Hk V. destruct (nth_error mats (b + k)) as [s|] eqn:Es; [|apply nth_error_None in Es; lia]. rewrite (rd_some _ _ _ Es). cbn [bind].
    destruct (xAdd_grp g (F s) ks1) as (ks2 & E & V2). rewrite E. eexists. split; [reflexivity|]. intros h. rewrite V2.
    destruct (Nat.eqb_spec h g) as [->|N]; [|rewrite V; now rewrite (proj2 (Nat.eqb_neq h g) N)].
    rewrite V, Nat.eqb_refl, <- app_assoc. f_equal.
    assert (S1 : firstn (S k) (skipn b mats) = firstn k (skipn b mats) ++ [s]).
    { assert (Ns : nth_error (skipn b mats) k = Some s) by (rewrite nth_error_skp; exact Es). revert Ns. generalize (skipn b mats). clear. intros l. revert k. induction l as [|x l IH]; intros [|k] H; try discriminate; cbn in *.
      - now injection H as ->. - now rewrite IH. }
    rewrite S1, map_app. reflexivity.
  - exists ks'. auto.
Qed.

Section FuG.
Context {T : Type}.
Variables (A : alg T) (cf : conf).
Local Notation zero := (aZero A).
Local Notation opp := (aOpp A).
Local Notation nDi := (nDis (cEl cf)).
Local Notation nMd := (nModes (cEl cf) (cSp cf)).
Local Notation nMdFa := (nModesFa (cEl cf) (cSp cf)).
Local Notation nFa := (nElFas (cEl cf)).
Local Notation nE := (nQtsE (cEl cf)).
Local Notation nM := (nQtsM (cEl cf)).
Local Notation nCr := (cCrs cf).
Local Notation nRm := (cRms cf).
Local Notation ent := (ent A).
Local Opaque nModes nModesCk nQtsE nQtsM nDis nModesFa nElFas.
Variables (big small isMax : T -> bool) (maxv : T) (qfma hier : bool) (P : pats).
Hypothesis Tol : tolOk A big small isMax maxv.
Local Notation clean := (clean A big isMax).

(** *** Values and offsets *)
Definition flat (cs : list (comp T)) : list T := flat_map cVal cs.
Definition offs (cs : list (comp T)) : list nat := map (fun i => length (flat (firstn i cs))) (seq 0 (S (length cs))).

Lemma offs_snoc cs c : offs (cs ++ [c]) = offs cs ++ [length (flat cs) + length (cVal c)].
Proof.
  unfold offs. rewrite app_length, Nat.add_1_r. rewrite (seq_S (S (length cs))), map_app. f_equal.
  - apply map_ext_in. intros i Hi. apply in_seq in Hi. rewrite firstn_app. replace (i - length cs) with 0 by lia. cbn. now rewrite app_nil_r.
  - cbn [map Nat.add]. rewrite firstn_all2 by (rewrite app_length; cbn; lia). unfold flat. rewrite flat_map_app, app_length. cbn. now rewrite app_nil_r.
Qed.
Lemma offs_last cs : last (offs cs) 0 = length (flat cs).
Proof. unfold offs. rewrite seq_S, map_app. cbn [map Nat.add]. rewrite last_last, firstn_all. reflexivity. Qed.
Lemma addData_ok cs mats : addData cs (offs mats, flat mats) = Ok (offs (mats ++ cs), flat (mats ++ cs)).
Proof.
  unfold addData. destruct (for_ok (fun k s => s = (offs (mats ++ firstn k cs), flat (mats ++ firstn k cs))) 0 (length cs)
    (fun i s => c <- rd cs i;; Ok (fst s ++ [last (fst s) 0 + length (cVal c)], snd s ++ cVal c)) (offs mats, flat mats)) as (s & E & ->).
  - lia.
  - cbn. now rewrite app_nil_r.
  - intros k s Hk ->. destruct (nth_error cs k) as [c|] eqn:Ec; [|apply nth_error_None in Ec; lia]. rewrite (rd_some _ _ _ Ec). cbn [bind fst snd]. eexists. split; [reflexivity|].
    assert (S1 : firstn (S k) cs = firstn k cs ++ [c]).
    { revert Ec. clear. revert k. induction cs as [|x l IH]; intros [|k] H; try discriminate; cbn in *. - now injection H as ->. - now rewrite IH. }
    rewrite S1, app_assoc, offs_snoc, offs_last. unfold flat. rewrite (flat_map_app _ (_ ++ _) [c]). cbn [flat_map]. now rewrite app_nil_r.
  - rewrite E. now rewrite firstn_all.
Qed.
Lemma offs_at cs i c : nth_error cs i = Some c ->
  nth_error (offs cs) i = Some (length (flat (firstn i cs))) /\ length (flat (firstn i cs)) + length (cVal c) <= length (flat cs) /\
  forall p, p < length (cVal c) -> nth (length (flat (firstn i cs)) + p) (flat cs) zero = nth p (cVal c) zero.
Proof.
  intros H. assert (Hi : i < length cs) by (apply nth_error_Some; congruence). split; [unfold offs; erewrite map_nth_error; [reflexivity|rewrite nth_error_seq by lia; reflexivity]|].
  assert (D : cs = firstn i cs ++ c :: skipn (S i) cs).
  { revert i H Hi. induction cs as [|x l IH]; intros [|i] H Hi; cbn in *; try lia. - now injection H as ->. - f_equal. apply IH; auto; lia. }
  assert (F : flat cs = flat (firstn i cs) ++ cVal c ++ flat (skipn (S i) cs)) by (rewrite D at 1; unfold flat; rewrite flat_map_app; reflexivity).
  rewrite F, !app_length. split; [lia|]. intros p Hp. rewrite app_nth2 by lia. rewrite app_nth1 by lia. f_equal. lia.
Qed.
Lemma nth_skipn {X} (l : list X) n p d : nth p (skipn n l) d = nth (n + p) l d.
Proof. revert l. induction n as [|n IH]; intros [|x l]; cbn; auto; destruct p; auto. Qed.

(** *** Blocks *)
Definition crdOf (m : list T) (l : list (entry T)) : Prop :=
  (forall e, In e l -> ro e < nMd /\ co e < nMd /\ ent nMd m (ro e) (co e) <> zero) /\
  (forall r c, r < nMd -> c < nMd -> ent nMd m r c <> zero -> exists e, In e l /\ ro e = r /\ co e = c).

Lemma toCrds_ok m : sized nDi (nMd * nMd) m -> (forall di, di < nDi -> clean (nth di m [])) ->
  exists cs, toCrds big cf m = Ok cs /\ length cs = nDi /\ forall di, di < nDi -> exists c, nth_error cs di = Some c /\ crdOf (nth di m []) c.
Proof.
  intros Hm Cl. unfold toCrds.
  destruct (for_map nDi (fun di o => a <- rd m di;; c <- denseToCrd big nMd nMd a;; Ok (o ++ [c])) (fun di c => crdOf (nth di m []) c) []) as (cs & E & Lc & V).
  - intros di l Hdi. rewrite (rd_sized _ _ _ di Hm Hdi). cbn [bind]. destruct (C36_dense_to_crd zero big nMd nMd (nth di m [])) as (c & E & _ & V1 & V2); [apply Hm; auto|].
    rewrite E. eexists. split; [reflexivity|]. assert (Lm : length (nth di m []) = nMd * nMd) by (apply Hm; auto). split.
    + intros e He. assert (I : In (nz e) (valuesAt c (ro e) (co e))) by (unfold valuesAt; apply in_map; apply filter_In; split; [auto|now rewrite !Nat.eqb_refl]).
      destruct (Nat.lt_ge_cases (ro e) nMd) as [R|R]; [|rewrite V2 in I by lia; destruct I]. destruct (Nat.lt_ge_cases (co e) nMd) as [C|C]; [|rewrite V2 in I by lia; destruct I].
      split; [auto|]. split; [auto|]. rewrite V1 in I by auto. unfold AderSpec.ent. destruct (big (nth (ro e * nMd + co e) (nth di m []) zero)) eqn:B; [|destruct I].
      intros Z. rewrite Z in B. destruct Tol. congruence.
    + intros r c' Hr Hc Hz. assert (Iv : In (nth (r * nMd + c') (nth di m []) zero) (nth di m [])) by (apply nth_In; rewrite Lm; nia).
      specialize (V1 r c' Hr Hc). unfold AderSpec.ent in Hz. destruct (big (nth (r * nMd + c') (nth di m []) zero)) eqn:B; [|exfalso; apply Hz; apply (Cl di Hdi _ Iv); auto].
      assert (I : In (nth (r * nMd + c') (nth di m []) zero) (valuesAt c r c')) by (rewrite V1; left; auto). unfold valuesAt in I. apply in_map_iff in I. destruct I as (e & _ & I).
      apply filter_In in I. destruct I as [I K]. apply andb_true_iff in K. destruct K as [K1 K2]. apply Nat.eqb_eq in K1, K2. eauto.
  - exists cs. auto.
Qed.

Lemma within_upTo r c (e : entry T) : within (upTo r c) e <-> ro e <= r /\ co e <= c.
Proof.
  unfold within, upTo. cbn [fst snd]. split.
  - intros (_ & H1 & _ & H2). auto.
  - intros [H1 H2]. split; [intros l [= <-]; lia|]. split; [intros l [= <-]; lia|]. split; [intros l [= <-]; lia|intros l [= <-]; lia].
Qed.

(** *** Time prediction *)
Section Time.
Variables (stiffT : list (list T)) (bd : nat -> nat).
Hypothesis Hst : sized nDi (nMd * nMd) stiffT.
Hypothesis Cl : forall di, di < nDi -> clean (nth di stiffT []).
Hypothesis Bl : blocks A cf stiffT bd.
Hypothesis Hier : hier = true -> forall de, 1 <= de < cTi cf -> bd de = nModes (cEl cf) (cSp cf - de).

Lemma bd_pos de : 1 < cTi cf -> de < cTi cf -> 0 < bd de <= nMd.
Proof. intros H1 Hd. destruct Bl as [B0 B]. destruct de; [rewrite B0; destruct (B 1 ltac:(lia)) as [X _]; lia|]. apply B. lia. Qed.

Lemma maxCol_ok crds de : (forall di, di < nDi -> exists c, nth_error crds di = Some c /\ crdOf (nth di stiffT []) c) -> 1 <= de < cTi cf ->
  maxCol cf crds (upTo (bd (de - 1) - 1) (nMd - 1)) = Ok (bd de - 1).
Proof.
  intros Cr Hde. assert (P0 := bd_pos (de - 1) ltac:(lia) ltac:(lia)). assert (P1 := bd_pos de ltac:(lia) ltac:(lia)).
  destruct (proj2 Bl de Hde) as (_ & _ & Bz & (d0 & l0 & Hd0 & Hl0 & N0) & Bn). unfold maxCol.
  destruct (for_ok (fun k m => m <= bd de - 1 /\ (d0 < k -> m = bd de - 1)) 0 nDi
    (fun di m => c <- rd crds di;; match snd (snd (getBlockNz c (upTo (bd (de - 1) - 1) (nMd - 1)))) with Some x => Ok (Nat.max m x) | None => Er Eub end) 0) as (m & E & _ & V).
  - lia. - lia.
  - intros di m Hdi (M1 & M2). destruct (Cr di ltac:(lia)) as (c & Ec & C1 & C2). rewrite (rd_some _ _ _ Ec). cbn [bind].
    destruct (C36_block c (upTo (bd (de - 1) - 1) (nMd - 1))) as [_ BB].
    destruct BB as (r0 & r1 & c0 & c1 & EB & V1 & _ & _ & _ & (e1 & I1 & W1 & <-)).
    { destruct (Bn di ltac:(lia)) as (l & y & Hl & Hy & N). destruct (C2 l y ltac:(lia) Hy N) as (e & I & R1 & R2). exists e. split; [auto|]. apply within_upTo. lia. }
    rewrite EB. cbn [fst snd]. eexists. split; [reflexivity|]. apply within_upTo in W1. destruct (C1 e1 I1) as (X1 & X2 & X3).
    assert (U : co e1 <= bd de - 1).
    { destruct (Nat.le_gt_cases (co e1) (bd de - 1)) as [|G]; [auto|]. exfalso. apply X3. apply Bz; lia. }
    split; [lia|]. intros Hk. destruct (Nat.eq_dec d0 di) as [->|N]; [|assert (m = bd de - 1) by (apply M2; lia); lia].
    destruct (C2 l0 (bd de - 1) ltac:(lia) ltac:(lia) N0) as (e & I & R1 & R2). assert (W : within (upTo (bd (de - 1) - 1) (nMd - 1)) e) by (apply within_upTo; lia).
    destruct (V1 e I W) as [_ V2]. lia.
  - rewrite E. f_equal. apply V. auto.
Qed.

(** the matrix of derivative [de] and direction [di] *)
Definition tMat (de di : nat) (s : comp T) : Prop := nth (bd de) (cPtr s) 0 = length (cVal s) /\
  stored A (bd de) (bd (de - 1)) (cPtr s) (cIdx s) (cVal s) (fun r c => ent nMd (nth di stiffT []) r c).
Definition tMats (d : nat) (mats : list (comp T)) : Prop := length mats = (d - 1) * nDi /\
  forall de di, 1 <= de < d -> di < nDi -> exists s, nth_error mats ((de - 1) * nDi + di) = Some s /\ tMat de di s.

Lemma tMats_snoc d mats cs : 1 <= d -> tMats d mats -> length cs = nDi -> (forall di, di < nDi -> exists s, nth_error cs di = Some s /\ tMat d di s) -> tMats (S d) (mats ++ cs).
Proof.
  intros Hd (Lm & V) Lc Vc. split; [rewrite app_length; replace (S d - 1) with (S (d - 1)) by lia; cbn; lia|]. intros de di Hde Hdi. destruct (Nat.eq_dec de d) as [->|N].
  - rewrite nth_error_app2 by lia. replace ((d - 1) * nDi + di - length mats) with di by lia. auto.
  - rewrite nth_error_app1; [apply V; lia|]. rewrite Lm. assert ((de - 1) * nDi + nDi <= (d - 1) * nDi) by nia. lia.
Qed.

Lemma getCscStiffT_ok : exists mats, getCscStiffT zero big small isMax maxv qfma hier cf stiffT = Ok (map (fun de => bd de - 1) (seq 1 (cTi cf - 1)), (offs mats, flat mats), mats) /\
  tMats (Nat.max 1 (cTi cf)) mats.
Proof.
  unfold getCscStiffT. destruct (toCrds_ok stiffT Hst Cl) as (crds & Ec & _ & Cr). rewrite Ec. cbn [bind].
  destruct (Nat.le_gt_cases (cTi cf) 1) as [HT|HT].
  { rewrite for_empty by auto. cbn [bind]. exists []. replace (cTi cf - 1) with 0 by lia. split; [reflexivity|]. rewrite Nat.max_l by auto. split; [reflexivity|intros; lia]. }
  rewrite Nat.max_r by lia.
  loop (fun d (s : list nat * (list nat * list T) * list (comp T) * nat) => let '(mx, dat, mats, prev) := s in
    mx = map (fun de => bd de - 1) (seq 1 (d - 1)) /\ dat = (offs mats, flat mats) /\ tMats d mats /\ prev = bd (d - 1) - 1) as s E H.
  - lia.
  - split; [reflexivity|]. split; [reflexivity|]. split; [split; [reflexivity|intros; lia]|]. cbn. rewrite (proj1 Bl). reflexivity.
  - intros d (((mx & dat) & mats) & prev) Hd (-> & -> & Vm & ->). assert (P0 := bd_pos (d - 1) ltac:(lia) ltac:(lia)). assert (P1 := bd_pos d ltac:(lia) ltac:(lia)).
    unfold cscStep. rewrite (maxCol_ok crds d Cr Hd). cbn [bind]. replace (bd (d - 1) - 1 + 1) with (bd (d - 1)) by lia. replace (bd d - 1 + 1) with (bd d) by lia.
    destruct (for_map nDi (fun di cs => a <- rd stiffT di;; c <- denseToCsc big small isMax zero maxv nMd nMd a (Some (bd (d - 1))) (Some (bd d)) qfma {| cVal := []; cPtr := []; cIdx := [] |};; Ok (cs ++ [c])) (tMat d) []) as (cs & E & Lc & V).
    { intros di l Hdi. rewrite (rd_sized _ _ _ di Hst Hdi). cbn [bind].
      destruct (toCsc_ok A big small isMax maxv Tol nMd nMd (nth di stiffT []) (Some (bd (d - 1))) (Some (bd d)) qfma {| cVal := []; cPtr := []; cIdx := [] |}) as (s & E & X1 & X2 & _);
        [apply Hst; auto|cbn; lia|cbn; lia|auto|]. rewrite E. eexists. split; [reflexivity|]. split; auto. }
    rewrite E. cbn [bind app].
    assert (SH : (d =? 1) || (bd d - 1 <? bd (d - 1) - 1) = true).
    { destruct (Nat.eqb_spec d 1) as [|N]; [reflexivity|]. cbn [orb]. apply Nat.ltb_lt. destruct (proj2 Bl d Hd) as (_ & X & _). specialize (X ltac:(lia)). lia. }
    rewrite SH, addData_ok. cbn [bind].
    assert (Ck : negb hier || (bd d =? nModes (cEl cf) (cSp cf - d)) = true).
    { destruct hier; [|reflexivity]. cbn. apply Nat.eqb_eq. apply Hier; auto. }
    rewrite Ck. cbn [check bind]. eexists. split; [reflexivity|]. replace (S d - 1) with (S (d - 1)) by lia. split.
    + rewrite seq_S, map_app. replace (1 + (d - 1)) with d by lia. reflexivity.
    + split; [reflexivity|]. split; [apply tMats_snoc; auto; lia|]. f_equal. f_equal. lia.
  - destruct s as (((mx & dat) & mats) & prev). destruct H as (-> & -> & Vm & _). exists mats. auto.
Qed.

Definition tD0 (de : nat) : gdesc := Build_gdesc nE (bd de) (bd (de - 1)) nMd 0 (bd de) false.
Definition tD1 (de : nat) : gdesc := Build_gdesc nE (bd de) nE 0 (bd de) nMd true.
Definition tD2 : gdesc := Build_gdesc nM (bd 1) nE 0 (bd 1) nMd true.
Definition tD3 : gdesc := Build_gdesc nM nMd nM 0 nMd nMd true.

Lemma genTimeF_ok : (0 < nRm -> 1 < cTi cf) -> exists mats ks st, genTimeF zero big small isMax maxv qfma hier cf P stiffT = Ok ks /\
  storeStiffTF zero opp big small isMax maxv qfma hier cf stiffT = Ok st /\ tMats (Nat.max 1 (cTi cf)) mats /\
  (forall de di s, 1 <= de < cTi cf -> di < nDi -> nth_error mats ((de - 1) * nDi + di) = Some s -> xKern ks 0 ((de - 1) * nDi + di) = Ok (cscK cf s (tD0 de)) /\
    exists v, rd2 st (de - 1) di = Ok v /\ length (cVal s) <= length v /\ forall p, p < length (cVal s) -> nth p v zero = opp (nth p (cVal s) zero)) /\
  (forall de, 1 <= de < cTi cf -> xKern ks 1 (de - 1) = Ok (csrK cf (pE P) (tD1 de))) /\
  (0 < nRm -> xKern ks 2 0 = Ok (csrK cf (pA P) tD2) /\ xKern ks 2 1 = Ok (csrK cf (pS P) tD3)).
Proof.
  intros HR. destruct getCscStiffT_ok as (mats & EG & Vm). exists mats. unfold genTimeF, storeStiffTF. rewrite EG. cbn [bind].
  set (mx := map (fun de => bd de - 1) (seq 1 (cTi cf - 1))).
  assert (Emx : forall de, 1 <= de < cTi cf -> rd mx (de - 1) = Ok (bd de - 1)).
  { intros de Hde. apply rd_some. unfold mx. erewrite map_nth_error; [reflexivity|]. rewrite nth_error_seq by lia. f_equal. lia. }
  assert (Hm : Nat.max 1 (cTi cf) - 1 = cTi cf - 1) by lia.
  assert (exists ks0, for_ 1 (cTi cf) (fun de ks => n <- rd mx (de - 1);; k <- (if de =? 1 then Ok nMd else k <- rd mx (de - 2);; Ok (k + 1));;
      ks <- for_ 0 nDi (fun di ks => s <- rd mats ((de - 1) * nDi + di);; xAdd 0 (cscK cf s (Build_gdesc nE (n + 1) k nMd 0 (n + 1) false)) ks) ks;;
      xAdd 1 (csrK cf (pE P) (Build_gdesc nE (n + 1) nE 0 (n + 1) nMd true)) ks) [] = Ok ks0 /\
    (forall de di s, 1 <= de < cTi cf -> di < nDi -> nth_error mats ((de - 1) * nDi + di) = Some s -> nth_error (nth 0 ks0 []) ((de - 1) * nDi + di) = Some (cscK cf s (tD0 de))) /\
    (forall de, 1 <= de < cTi cf -> nth_error (nth 1 ks0 []) (de - 1) = Some (csrK cf (pE P) (tD1 de))) /\ nth 2 ks0 [] = []) as (ks0 & E0 & V0 & V1 & V2).
  { destruct (Nat.le_gt_cases (cTi cf) 1) as [HT|HT]; [rewrite for_empty by auto; exists []; split; [reflexivity|]; split; [intros; lia|]; split; [intros; lia|reflexivity]|].
    rewrite Nat.max_r in Vm by lia. destruct Vm as (Lm & Vm).
    loop (fun d ks0 => (forall de di s, 1 <= de < d -> di < nDi -> nth_error mats ((de - 1) * nDi + di) = Some s -> nth_error (nth 0 ks0 []) ((de - 1) * nDi + di) = Some (cscK cf s (tD0 de))) /\
      length (nth 0 ks0 []) = (d - 1) * nDi /\ length (nth 1 ks0 []) = d - 1 /\
      (forall de, 1 <= de < d -> nth_error (nth 1 ks0 []) (de - 1) = Some (csrK cf (pE P) (tD1 de))) /\ nth 2 ks0 [] = []) as ks0 E H.
    - lia.
    - split; [intros; lia|]. split; [reflexivity|]. split; [reflexivity|]. split; [intros; lia|reflexivity].
    - intros d ks Hd (V0 & L0 & L1 & V1 & V2). assert (P0 := bd_pos (d - 1) ltac:(lia) ltac:(lia)). assert (P1 := bd_pos d ltac:(lia) ltac:(lia)).
      rewrite (Emx d Hd). cbn [bind].
      assert (Ek : (if d =? 1 then Ok nMd else k <- rd mx (d - 2);; Ok (k + 1)) = Ok (bd (d - 1))).
      { destruct (Nat.eqb_spec d 1) as [->|N]; [cbn; now rewrite (proj1 Bl)|]. replace (d - 2) with (d - 1 - 1) by lia. rewrite (Emx (d - 1)) by lia. cbn [bind]. f_equal. lia. }
      rewrite Ek. cbn [bind]. replace (bd d - 1 + 1) with (bd d) by lia.
      assert (Bn : (d - 1) * nDi + nDi <= length mats) by (rewrite Lm; nia).
      destruct (addKernels (fun s => cscK cf s (tD0 d)) mats ((d - 1) * nDi) 0 nDi ks Bn) as (ks1 & E1 & W1). unfold tD0 in E1. rewrite E1. cbn [bind].
      destruct (xAdd_grp 1 (csrK cf (pE P) (tD1 d)) ks1) as (ks2 & E2 & W2). unfold tD1 in E2. rewrite E2. eexists. split; [reflexivity|].
      rewrite !W2. cbn [Nat.eqb]. rewrite !W1. cbn [Nat.eqb].
      assert (Lf : length (firstn nDi (skipn ((d - 1) * nDi) mats)) = nDi) by (rewrite firstn_length, skipn_length; lia).
      split; [|split; [|split; [|split]]].
      + intros de di s Hde Hdi Hs. destruct (Nat.eq_dec de d) as [->|N].
        * rewrite nth_error_app2 by lia. rewrite L0. replace ((d - 1) * nDi + di - (d - 1) * nDi) with di by lia. erewrite map_nth_error; [reflexivity|].
          assert (X : nth_error (skipn ((d - 1) * nDi) mats) di = Some s) by (rewrite nth_error_skp; exact Hs). revert X Hdi. generalize (skipn ((d - 1) * nDi) mats). clear.
          generalize nDi. intros n l. revert di n. induction l as [|x l IH]; intros [|di] [|n] X Hdi; cbn in *; try lia; try discriminate; auto. apply IH; auto. lia.
        * rewrite nth_error_app1; [apply V0; auto; lia|]. rewrite L0. assert ((de - 1) * nDi + nDi <= (d - 1) * nDi) by nia. lia.
      + rewrite app_length, map_length, Lf, L0. nia.
      + rewrite app_length. cbn. lia.
      + intros de Hde. destruct (Nat.eq_dec de d) as [->|N]; [|rewrite nth_error_app1 by lia; apply V1; lia]. rewrite nth_error_app2 by lia. rewrite L1, Nat.sub_diag. reflexivity.
      + exact V2.
    - exists ks0. split; [reflexivity|]. destruct H as (V0 & _ & _ & V1 & V2). auto. }
  rewrite E0. cbn [bind]. clear E0.
  assert (exists st, (_ <- check (length (offs mats) =? (cTi cf - 1) * nDi + 1);;
     for_ 1 (cTi cf) (fun de o => r <- for_ 0 nDi (fun di r => x <- rd (offs mats) ((de - 1) * nDi + di);; Ok (r ++ [skipn x (map opp (flat mats))])) [];; Ok (o ++ [r])) []) = Ok st /\
    forall de di s, 1 <= de < cTi cf -> di < nDi -> nth_error mats ((de - 1) * nDi + di) = Some s ->
      exists v, rd2 st (de - 1) di = Ok v /\ length (cVal s) <= length v /\ forall p, p < length (cVal s) -> nth p v zero = opp (nth p (cVal s) zero)) as (st & Es & Vs).
  { assert (Lo : length (offs mats) =? (cTi cf - 1) * nDi + 1 = true) by (apply Nat.eqb_eq; unfold offs; rewrite map_length, seq_length; destruct Vm as (-> & _); rewrite Hm; lia).
    rewrite Lo. cbn [check bind].
    destruct (Nat.le_gt_cases (cTi cf) 1) as [HT|HT]; [rewrite for_empty by auto; exists []; split; [reflexivity|intros; lia]|].
    rewrite Nat.max_r in Vm by lia. destruct Vm as (Lm & Vm).
    set (Q := fun de (r : list (list T)) => length r = nDi /\ forall di s, di < nDi -> nth_error mats ((de - 1) * nDi + di) = Some s ->
      exists v, nth_error r di = Some v /\ length (cVal s) <= length v /\ forall p, p < length (cVal s) -> nth p v zero = opp (nth p (cVal s) zero)).
    loop (fun d (o : list (list (list T))) => length o = d - 1 /\ forall de, 1 <= de < d -> exists r, nth_error o (de - 1) = Some r /\ Q de r) as st E H.
    - lia.
    - split; [reflexivity|intros; lia].
    - intros d o Hd (Lo' & Vo).
      destruct (for_map nDi (fun di r => x <- rd (offs mats) ((d - 1) * nDi + di);; Ok (r ++ [skipn x (map opp (flat mats))]))
        (fun di v => forall s, nth_error mats ((d - 1) * nDi + di) = Some s -> length (cVal s) <= length v /\ forall p, p < length (cVal s) -> nth p v zero = opp (nth p (cVal s) zero)) []) as (r & Er & Lr & Vr).
      { intros di l Hdi. destruct (Vm d di ltac:(lia) Hdi) as (s & Hs & _). destruct (offs_at mats _ s Hs) as (O1 & O2 & O3). rewrite (rd_some _ _ _ O1). cbn [bind].
        eexists. split; [reflexivity|]. intros s' Hs'. rewrite Hs in Hs'. injection Hs' as <-. rewrite skipn_length, map_length. split; [lia|].
        intros p Hp. rewrite nth_skipn. rewrite (nth_indep _ zero (opp zero)) by (rewrite map_length; lia). rewrite map_nth, O3 by auto. reflexivity. }
      rewrite Er. cbn [bind app]. eexists. split; [reflexivity|]. split; [rewrite app_length; cbn; lia|]. intros de Hde. destruct (Nat.eq_dec de d) as [->|N].
      + exists r. split; [rewrite nth_error_app2 by lia; replace (d - 1 - length o) with 0 by lia; reflexivity|]. split; [auto|].
        intros di s Hdi Hs. destruct (Vr di Hdi) as (v & Hv & X). exists v. split; [auto|]. apply X; auto.
      + rewrite nth_error_app1 by lia. apply Vo. lia.
    - exists st. split; [reflexivity|]. destruct H as (_ & V). intros de di s Hde Hdi Hs. destruct (V de Hde) as (r & Hr & _ & X). destruct (X di s Hdi Hs) as (v & Hv & Y). exists v. split; [|exact Y].
      unfold rd2. rewrite (rd_some _ _ _ Hr). cbn [bind]. now apply rd_some. }
  destruct (Nat.ltb_spec 0 nRm) as [R|R].
  - assert (E1 := Emx 1 ltac:(specialize (HR R); lia)). cbn in E1. rewrite E1. cbn [bind]. assert (P1 := bd_pos 1 (HR R) (HR R)). replace (bd 1 - 1 + 1) with (bd 1) by lia.
    destruct (xAdd_grp 2 (csrK cf (pA P) tD2) ks0) as (ks1 & F1 & W1). unfold tD2 in F1. rewrite F1. cbn [bind].
    destruct (xAdd_grp 2 (csrK cf (pS P) tD3) ks1) as (ks2 & F2 & W2). unfold tD3 in F2. rewrite F2.
    exists ks2, st. split; [reflexivity|]. split; [exact Es|]. split; [exact Vm|].
    assert (G0 : nth 0 ks2 [] = nth 0 ks0 []) by (rewrite W2; cbn [Nat.eqb]; rewrite W1; reflexivity). assert (G1 : nth 1 ks2 [] = nth 1 ks0 []) by (rewrite W2; cbn [Nat.eqb]; rewrite W1; reflexivity).
    assert (G2 : nth 2 ks2 [] = [csrK cf (pA P) tD2; csrK cf (pS P) tD3]) by (rewrite W2; cbn [Nat.eqb]; rewrite W1; cbn [Nat.eqb]; rewrite V2; reflexivity).
    split; [intros de di s Hde Hdi Hs; split; [apply xKern_grp; rewrite G0; auto|eauto]|]. split; [intros; apply xKern_grp; rewrite G1; auto|].
    intros _. split; apply xKern_grp; rewrite G2; reflexivity.
  - exists ks0, st. split; [reflexivity|]. split; [exact Es|]. split; [exact Vm|].
    split; [intros de di s Hde Hdi Hs; split; [apply xKern_grp; auto|eauto]|]. split; [intros; apply xKern_grp; auto|]. intros; lia.
Qed.
End Time.

(** *** Matrices at offsets *)
Lemma storeOff (mats : list (comp T)) b n : b + n <= length mats ->
  exists st, for_ 0 n (fun i o => x <- rd (offs mats) (b + i);; Ok (o ++ [skipn x (flat mats)])) [] = Ok st /\ length st = n /\
    forall i s, i < n -> nth_error mats (b + i) = Some s -> exists v, rd st i = Ok v /\ length (cVal s) <= length v /\ forall p, p < length (cVal s) -> nth p v zero = nth p (cVal s) zero.
Proof.
  intros Hb. destruct (for_map n (fun i o => x <- rd (offs mats) (b + i);; Ok (o ++ [skipn x (flat mats)]))
    (fun i v => forall s, nth_error mats (b + i) = Some s -> length (cVal s) <= length v /\ forall p, p < length (cVal s) -> nth p v zero = nth p (cVal s) zero) []) as (st & E & Ls & V).
  - intros i l Hi. destruct (nth_error mats (b + i)) as [s|] eqn:Hs; [|apply nth_error_None in Hs; lia]. destruct (offs_at mats _ s Hs) as (O1 & O2 & O3). rewrite (rd_some _ _ _ O1). cbn [bind].
    eexists. split; [reflexivity|]. intros s' [= <-]. rewrite skipn_length. split; [lia|]. intros p Hp. rewrite nth_skipn, O3 by auto. reflexivity.
  - rewrite E. exists st. split; [reflexivity|]. split; [auto|]. intros i s Hi Hs. destruct (V i Hi) as (v & Hv & X). exists v. split; [now apply rd_some|]. apply X; auto.
Qed.

Lemma nth_firstn_skipn {X} (l : list X) b n i s : i < n -> nth_error l (b + i) = Some s -> nth_error (firstn n (skipn b l)) i = Some s.
Proof.
  intros Hi Hs. rewrite <- nth_error_skp in Hs. revert Hs Hi. generalize (skipn b l). clear. intros l. revert i n. induction l as [|x l IH]; intros [|i] [|n] X0 Hi; cbn in *; try lia; try discriminate; auto. apply IH; auto. lia.
Qed.

(** *** Volume integration *)
Section Vol.
Variables (stiff : list (list T)) (br : nat).
Hypothesis Hst : sized nDi (nMd * nMd) stiff.
Hypothesis Cl : forall di, di < nDi -> clean (nth di stiff []).
Hypothesis Bl : rowBlock A cf stiff br.
Hypothesis Hier : hier = true -> br = nModes (cEl cf) (cSp cf - 1).

Definition vMat (di : nat) (s : comp T) : Prop := nth nMd (cPtr s) 0 = length (cVal s) /\
  stored A nMd nMd (cPtr s) (cIdx s) (cVal s) (fun r c => ent nMd (nth di stiff []) r c) /\
  (qfma = false -> stored A nMd br (cPtr s) (cIdx s) (cVal s) (fun r c => ent nMd (nth di stiff []) r c)).

Lemma getCscStiff_ok : exists mats, getCscStiff zero big small isMax maxv qfma hier cf stiff = Ok (br - 1, (offs mats, flat mats), mats) /\
  length mats = nDi /\ forall di, di < nDi -> exists s, nth_error mats di = Some s /\ vMat di s.
Proof.
  unfold getCscStiff. destruct (toCrds_ok stiff Hst Cl) as (crds & Ec & _ & Cr). rewrite Ec. cbn [bind].
  destruct Bl as (Bp & Bz & (d0 & y0 & Hd0 & Hy0 & N0) & Bn).
  destruct (for_ok (fun k m => m <= br - 1 /\ (d0 < k -> m = br - 1)) 0 nDi
    (fun di m => c <- rd crds di;; match snd (fst (getBlockNz c (upTo (nMd - 1) (nMd - 1)))) with Some x => Ok (Nat.max m x) | None => Er Eub end) 0) as (m & E & _ & V).
  - lia. - lia.
  - intros di m Hdi (M1 & M2). destruct (Cr di ltac:(lia)) as (c & Ec' & C1 & C2). rewrite (rd_some _ _ _ Ec'). cbn [bind].
    destruct (C36_block c (upTo (nMd - 1) (nMd - 1))) as [_ BB].
    destruct BB as (r0 & r1 & c0 & c1 & EB & V1 & _ & (e1 & I1 & W1 & <-) & _).
    { destruct (Bn di ltac:(lia)) as (l & y & Hl & Hy & N). destruct (C2 l y ltac:(lia) Hy N) as (e & I & R1 & R2). exists e. split; [auto|]. apply within_upTo. lia. }
    rewrite EB. cbn [fst snd]. eexists. split; [reflexivity|]. apply within_upTo in W1. destruct (C1 e1 I1) as (X1 & X2 & X3).
    assert (U : ro e1 <= br - 1).
    { destruct (Nat.le_gt_cases (ro e1) (br - 1)) as [|G]; [auto|]. exfalso. apply X3. apply Bz; lia. }
    split; [lia|]. intros Hk. destruct (Nat.eq_dec d0 di) as [->|N]; [|assert (m = br - 1) by (apply M2; lia); lia].
    destruct (C2 (br - 1) y0 ltac:(lia) ltac:(lia) N0) as (e & I & R1 & R2). assert (W : within (upTo (nMd - 1) (nMd - 1)) e) by (apply within_upTo; lia).
    destruct (V1 e I W) as [V2 _]. lia.
  - rewrite E. cbn [bind]. rewrite (V Hd0). clear m E V.
    assert (Ck : negb hier || (br - 1 + 1 =? nModes (cEl cf) (cSp cf - 1)) = true).
    { destruct hier; [|reflexivity]. cbn. apply Nat.eqb_eq. rewrite <- (Hier eq_refl). lia. }
    rewrite Ck. cbn [check bind].
    destruct (for_map nDi (fun di cs => a <- rd stiff di;; c <- denseToCsc big small isMax zero maxv nMd nMd a None None qfma {| cVal := []; cPtr := []; cIdx := [] |};; Ok (cs ++ [c])) vMat []) as (cs & E & Lc & V).
    { intros di l Hdi. rewrite (rd_sized _ _ _ di Hst Hdi). cbn [bind].
      destruct (toCsc_ok A big small isMax maxv Tol nMd nMd (nth di stiff []) None None qfma {| cVal := []; cPtr := []; cIdx := [] |}) as (s & E & X1 & X2 & X3);
        [apply Hst; auto|cbn; lia|cbn; lia|auto|]. rewrite E. eexists. split; [reflexivity|]. split; [exact X1|]. split; [exact X2|]. intros Q. cbn [orElse] in *. split; [apply X3; auto; lia|]. intros c r Hc Hr. apply X2; lia. }
    rewrite E. cbn [bind app]. assert (EA := addData_ok cs []). cbn in EA. rewrite EA. cbn [bind app]. exists cs. auto.
Qed.

Definition vN : nat := if nRm =? 0 then br else nMd.
Definition vD0 : gdesc := Build_gdesc nE nMd br vN 0 nMd (nRm =? 0).
Definition vD1 : gdesc := Build_gdesc nE vN nE 0 nMd vN (negb (nRm =? 0)).
Definition vD2 : gdesc := Build_gdesc nM nMd nE 0 nMd nMd true.
Definition vD3 : gdesc := Build_gdesc nM nMd nM 0 nMd nMd true.

Lemma genVolF_ok : exists mats ks st, genVolF zero big small isMax maxv qfma hier cf P stiff = Ok ks /\ storeStiffF zero big small isMax maxv qfma hier cf stiff = Ok st /\
  (forall di, di < nDi -> exists s, nth_error mats di = Some s /\ vMat di s /\ xKern ks 0 di = Ok (cscK cf s vD0) /\
    exists v, rd st di = Ok v /\ length (cVal s) <= length v /\ forall p, p < length (cVal s) -> nth p v zero = nth p (cVal s) zero) /\
  xKern ks 1 0 = Ok (csrK cf (pE P) vD1) /\
  (0 < nRm -> xKern ks 2 0 = Ok (csrK cf (pA P) vD2) /\ xKern ks 2 1 = Ok (csrK cf (pS P) vD3)).
Proof.
  destruct getCscStiff_ok as (mats & EG & Lm & Vm). exists mats. unfold genVolF, storeStiffF. rewrite EG. cbn [bind].
  assert (Bp : 0 < br) by apply Bl. replace (br - 1 + 1) with br by lia. fold vN.
  destruct (addKernels (fun s => cscK cf s vD0) mats 0 0 nDi [] ltac:(lia)) as (ks0 & E0 & W0). unfold vD0 in E0. cbn [Nat.add] in E0. rewrite E0. cbn [bind].
  destruct (xAdd_grp 1 (csrK cf (pE P) vD1) ks0) as (ks1 & F1 & W1). unfold vD1 in F1. rewrite F1. cbn [bind].
  assert (Lo : length (offs mats) =? nDi + 1 = true) by (apply Nat.eqb_eq; unfold offs; rewrite map_length, seq_length; lia). rewrite Lo. cbn [check bind].
  destruct (storeOff mats 0 nDi ltac:(lia)) as (st & Es & Ls & Vs). cbn [Nat.add] in Es, Vs. rewrite Es.
  assert (K0 : forall di s, di < nDi -> nth_error mats di = Some s -> nth_error (nth 0 ks1 []) di = Some (cscK cf s vD0)).
  { intros di s Hdi Hs. rewrite W1. cbn [Nat.eqb]. rewrite W0. cbn [Nat.eqb nth app]. erewrite map_nth_error; [reflexivity|]. apply nth_firstn_skipn; auto. }
  assert (K1 : nth 1 ks1 [] = [csrK cf (pE P) vD1]) by (rewrite W1; cbn [Nat.eqb]; rewrite W0; reflexivity).
  assert (K2 : nth 2 ks1 [] = []) by (rewrite W1; cbn [Nat.eqb]; rewrite W0; reflexivity).
  destruct (Nat.ltb_spec 0 nRm) as [R|R].
  - destruct (xAdd_grp 2 (csrK cf (pA P) vD2) ks1) as (ks2 & F2 & W2). unfold vD2 in F2. rewrite F2. cbn [bind].
    destruct (xAdd_grp 2 (csrK cf (pS P) vD3) ks2) as (ks3 & F3 & W3). unfold vD3 in F3. rewrite F3.
    exists ks3, st. split; [reflexivity|]. split; [reflexivity|].
    assert (G0 : nth 0 ks3 [] = nth 0 ks1 []) by (rewrite W3; cbn [Nat.eqb]; rewrite W2; reflexivity). assert (G1 : nth 1 ks3 [] = nth 1 ks1 []) by (rewrite W3; cbn [Nat.eqb]; rewrite W2; reflexivity).
    assert (G2 : nth 2 ks3 [] = [csrK cf (pA P) vD2; csrK cf (pS P) vD3]) by (rewrite W3; cbn [Nat.eqb]; rewrite W2; cbn [Nat.eqb]; rewrite K2; reflexivity).
    split. { intros di Hdi. destruct (Vm di Hdi) as (s & Hs & X). exists s. split; [auto|]. split; [auto|]. split; [apply xKern_grp; rewrite G0; auto|]. apply Vs; auto. }
    split; [apply xKern_grp; rewrite G1, K1; reflexivity|]. intros _. split; apply xKern_grp; rewrite G2; reflexivity.
  - exists ks1, st. split; [reflexivity|]. split; [reflexivity|].
    split. { intros di Hdi. destruct (Vm di Hdi) as (s & Hs & X). exists s. split; [auto|]. split; [auto|]. split; [apply xKern_grp; auto|]. apply Vs; auto. }
    split; [apply xKern_grp; rewrite K1; reflexivity|]. intros; lia.
Qed.
End Vol.

(** *** Surface integration *)
Section Surf.
Variables (fIntLN fIntT : list (list T)).
Local Notation nLN := (nFa + nFluxN (cEl cf)).
Hypothesis Hln : sized nLN (nMd * nMdFa) fIntLN.
Hypothesis Htr : sized nFa (nMdFa * nMd) fIntT.
Hypothesis Cln : forall i, i < nLN -> clean (nth i fIntLN []).
Hypothesis Ctr : forall i, i < nFa -> clean (nth i fIntT []).

Definition lnMat (i : nat) (s : comp T) : Prop := nth nMdFa (cPtr s) 0 = length (cVal s) /\
  stored A nMdFa nMd (cPtr s) (cIdx s) (cVal s) (fun r c => ent nMdFa (nth i fIntLN []) r c).
Definition trMat (i : nat) (s : comp T) : Prop := nth nMd (cPtr s) 0 = length (cVal s) /\
  stored A nMd nMdFa (cPtr s) (cIdx s) (cVal s) (fun r c => ent nMd (nth i fIntT []) r c).

Lemma getCscFlux_ok : exists mats, getCscFlux zero big small isMax maxv qfma cf fIntLN fIntT = Ok ((offs mats, flat mats), mats) /\ length mats = nLN + nFa /\
  (forall i, i < nLN -> exists s, nth_error mats i = Some s /\ lnMat i s) /\ (forall i, i < nFa -> exists s, nth_error mats (nLN + i) = Some s /\ trMat i s).
Proof.
  unfold getCscFlux.
  destruct (for_map nLN (fun i cs => a <- rd fIntLN i;; c <- denseToCsc big small isMax zero maxv nMd nMdFa a None None qfma {| cVal := []; cPtr := []; cIdx := [] |};; Ok (cs ++ [c])) lnMat []) as (cs & E & Lc & V).
  { intros di l Hdi. rewrite (rd_sized _ _ _ di Hln Hdi). cbn [bind].
    destruct (toCsc_ok A big small isMax maxv Tol nMd nMdFa (nth di fIntLN []) None None qfma {| cVal := []; cPtr := []; cIdx := [] |}) as (s & E & X1 & X2 & _);
      [apply Hln; auto|cbn; lia|cbn; lia|auto|]. rewrite E. eexists. split; [reflexivity|]. split; auto. }
  rewrite E. cbn [bind app].
  destruct (for_map nFa (fun i cs => a <- rd fIntT i;; c <- denseToCsc big small isMax zero maxv nMdFa nMd a None None qfma {| cVal := []; cPtr := []; cIdx := [] |};; Ok (cs ++ [c])) trMat cs) as (ct & E' & Lt & V').
  { intros di l Hdi. rewrite (rd_sized _ _ _ di Htr Hdi). cbn [bind].
    destruct (toCsc_ok A big small isMax maxv Tol nMdFa nMd (nth di fIntT []) None None qfma {| cVal := []; cPtr := []; cIdx := [] |}) as (s & E' & X1 & X2 & _);
      [apply Htr; auto|cbn; lia|cbn; lia|auto|]. rewrite E'. eexists. split; [reflexivity|]. split; auto. }
  rewrite E'. cbn [bind]. assert (EA := addData_ok (cs ++ ct) []). cbn in EA. rewrite EA. cbn [bind]. exists (cs ++ ct). split; [reflexivity|]. split; [rewrite app_length; lia|]. split.
  - intros i Hi. rewrite nth_error_app1 by lia. auto.
  - intros i Hi. rewrite nth_error_app2 by lia. rewrite Lc. replace (nLN + i - nLN) with i by lia. auto.
Qed.

Definition sD0 : gdesc := Build_gdesc nE nMdFa nMd nMd 0 nMdFa false.
Definition sD1 : gdesc := Build_gdesc nE nMdFa nE 0 nMdFa nMdFa false.
Definition sD2 : gdesc := Build_gdesc nE nMd nMdFa nMdFa 0 nMd true.
Definition sD3 : gdesc := Build_gdesc nM nMdFa nM 0 nMdFa nMdFa false.
Definition sD4 : gdesc := Build_gdesc nM nMd nMdFa nMdFa 0 nMd true.
Definition valsOf (s : comp T) (v : list T) : Prop := length (cVal s) <= length v /\ forall p, p < length (cVal s) -> nth p v zero = nth p (cVal s) zero.

Lemma genSurfF_ok : exists ks ln tr, genSurfF zero big small isMax maxv qfma cf P fIntLN fIntT = Ok ks /\ storeFluxF zero big small isMax maxv qfma cf fIntLN fIntT = Ok (ln, tr) /\
  (forall i, i < nLN -> exists s v, lnMat i s /\ xKern ks 0 i = Ok (cscK cf s sD0) /\ rd ln i = Ok v /\ valsOf s v) /\
  (forall i, i < nFa -> exists s v, trMat i s /\ xKern ks 2 i = Ok (cscK cf s sD2) /\ xKern ks 4 i = Ok (cscK cf s sD4) /\ rd tr i = Ok v /\ valsOf s v) /\
  xKern ks 1 0 = Ok (csrK cf (pFE P) sD1) /\ (0 < nRm -> xKern ks 3 0 = Ok (csrK cf (pFA P) sD3)).
Proof.
  destruct getCscFlux_ok as (mats & EG & Lm & Vl & Vt). unfold genSurfF, storeFluxF. rewrite EG. cbn [bind].
  destruct (addKernels (fun s => cscK cf s sD0) mats 0 0 nLN [] ltac:(lia)) as (ks0 & E0 & W0). unfold sD0 in E0. cbn [Nat.add] in E0. rewrite E0. cbn [bind].
  destruct (addKernels (fun s => cscK cf s sD2) mats nLN 2 nFa ks0 ltac:(lia)) as (ks2 & E2 & W2). unfold sD2 in E2. rewrite E2. cbn [bind].
  destruct (addKernels (fun s => cscK cf s sD4) mats nLN 4 nFa ks2 ltac:(lia)) as (ks4 & E4 & W4). unfold sD4 in E4. rewrite E4. cbn [bind].
  destruct (xAdd_grp 1 (csrK cf (pFE P) sD1) ks4) as (ks1 & F1 & W1). unfold sD1 in F1. rewrite F1. cbn [bind].
  assert (Lo : length (offs mats) =? nLN + nFa + 1 = true) by (apply Nat.eqb_eq; unfold offs; rewrite map_length, seq_length; lia). rewrite Lo. cbn [check bind].
  destruct (storeOff mats 0 nLN ltac:(lia)) as (ln & Es & _ & Vs). cbn [Nat.add] in Es, Vs. rewrite Es. cbn [bind].
  destruct (storeOff mats nLN nFa ltac:(lia)) as (tr & Es' & _ & Vs'). rewrite Es'. cbn [bind].
  assert (exists ks, (if 0 <? nRm then xAdd 3 (csrK cf (pFA P) sD3) ks1 else Ok ks1) = Ok ks /\ (forall h, h <> 3 -> nth h ks [] = nth h ks1 []) /\
    (0 < nRm -> nth 3 ks [] = [csrK cf (pFA P) sD3])) as (ks & F3 & W3 & X3).
  { destruct (Nat.ltb_spec 0 nRm) as [R|R]; [|exists ks1; split; [reflexivity|]; split; [auto|intros; lia]].
    destruct (xAdd_grp 3 (csrK cf (pFA P) sD3) ks1) as (ks & F3 & W3). exists ks. split; [exact F3|]. split; [intros h Hh; rewrite W3; now rewrite (proj2 (Nat.eqb_neq h 3) Hh)|].
    intros _. rewrite W3. cbn [Nat.eqb]. rewrite W1; cbn [Nat.eqb]; rewrite W4; cbn [Nat.eqb]; rewrite W2; cbn [Nat.eqb]; rewrite W0. reflexivity. }
  unfold sD3 in F3. rewrite F3. exists ks, ln, tr. split; [reflexivity|]. split; [reflexivity|].
  assert (K0 : nth 0 ks [] = map (fun s => cscK cf s sD0) (firstn nLN (skipn 0 mats))).
  { rewrite W3 by lia. rewrite W1; cbn [Nat.eqb]; rewrite W4; cbn [Nat.eqb]; rewrite W2; cbn [Nat.eqb]; rewrite W0. reflexivity. }
  assert (K2 : nth 2 ks [] = map (fun s => cscK cf s sD2) (firstn nFa (skipn nLN mats))).
  { rewrite W3 by lia. rewrite W1; cbn [Nat.eqb]; rewrite W4; cbn [Nat.eqb]; rewrite W2; cbn [Nat.eqb]; rewrite W0. reflexivity. }
  assert (K4 : nth 4 ks [] = map (fun s => cscK cf s sD4) (firstn nFa (skipn nLN mats))).
  { rewrite W3 by lia. rewrite W1; cbn [Nat.eqb]; rewrite W4; cbn [Nat.eqb]; rewrite W2; cbn [Nat.eqb]; rewrite W0. reflexivity. }
  split. { intros i Hi. destruct (Vl i Hi) as (s & Hs & X). destruct (Vs i s Hi Hs) as (v & Hv & Y). exists s, v. split; [auto|]. split; [|split; auto].
    apply xKern_grp. rewrite K0. erewrite map_nth_error; [reflexivity|]. apply nth_firstn_skipn; auto. }
  split. { intros i Hi. destruct (Vt i Hi) as (s & Hs & X). destruct (Vs' i s Hi Hs) as (v & Hv & Y). exists s, v. split; [auto|].
    split; [apply xKern_grp; rewrite K2; erewrite map_nth_error; [reflexivity|]; apply nth_firstn_skipn; auto|].
    split; [apply xKern_grp; rewrite K4; erewrite map_nth_error; [reflexivity|]; apply nth_firstn_skipn; auto|]. split; auto. }
  split; [apply xKern_grp; rewrite W3 by lia; rewrite W1; cbn [Nat.eqb]; rewrite W4; cbn [Nat.eqb]; rewrite W2; cbn [Nat.eqb]; rewrite W0; reflexivity|].
  intros R. apply xKern_grp. rewrite X3 by auto. reflexivity.
Qed.
End Surf.
End FuG.
