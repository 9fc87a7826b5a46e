(** C103: super-cells at internal boundaries pair the sub-cells at a face and average them. *)
From Coq Require Import List Arith Bool QArith Lqa Lia.
From Verif Require Import Util Comm SubGrid IbWriterV SuperCell SuperCellSpec SuperCellV.
Import ListNotations.
Open Scope nat_scope.

(** The stencils of a face are the pairs of adjacent sub-cells which are both at the face, every pair once and no sub-cell twice; if there are more pairs at some face than room, the program stops. Entries beyond the last pair are left as they were. *)
Theorem C103_stencils : forall nFas nSfs nScs nSt t cols, subTable nFas nSfs nScs t -> length cols = nFas -> (forall col, In col cols -> nSt <= length col) ->
  exists sts, (forall fa, fa < nFas -> (forall a b, In (a, b) (sts fa) <-> pair nFas nSfs nScs t fa a b /\ a < b) /\ NoDup (members (sts fa))) /\
  ((forall fa, fa < nFas -> length (sts fa) <= nSt) -> exists cols', faSt true nFas nSfs nScs nSt t cols = Ok cols' /\ length cols' = nFas /\ forall fa, fa < nFas -> nth fa cols' [] = sts fa ++ skipn (length (sts fa)) (nth fa cols [])) /\
  ((exists fa, fa < nFas /\ nSt < length (sts fa)) -> faSt true nFas nSfs nScs nSt t cols = Er Echeck).
Proof.
  intros nFas nSfs nScs nSt t cols TB LC R. exists (sts nFas nSfs nScs t). split; [|split].
  - intros fa Hf. split; [intros a b; apply sts_in; auto|apply sts_disjoint; auto].
  - intros H. unfold faSt. destruct (for_ok (fun i c => length c = nFas /\ forall fa, fa < nFas -> nth fa c [] = if fa <? i then sts nFas nSfs nScs t fa ++ skipn (length (sts nFas nSfs nScs t fa)) (nth fa cols []) else nth fa cols []) 0 nFas (fun fa cols => col <- rd cols fa ;; x <- faSt1 nFas nSfs nScs nSt t fa col ;; wr cols fa (snd x)) cols) as (c & E & LC' & I); [lia|split; [exact LC|reflexivity]| |].
    + intros fa c Hf (L & I). rewrite (rd_ok c fa []) by lia. cbn [bind]. rewrite I by lia. rewrite Nat.ltb_irrefl. rewrite faSt1_ok; [|auto|lia|apply R, nth_In; lia]. destruct (Nat.leb_spec (length (sts nFas nSfs nScs t fa)) nSt) as [_|Q]; [|specialize (H fa ltac:(lia)); lia]. cbn [bind snd]. rewrite wr_ok by lia. eexists. split; [reflexivity|]. split; [now rewrite length_upd|].
      intros fa' Hf'. destruct (Nat.eq_dec fa' fa) as [->|N]; [rewrite nth_upd_eq by lia; destruct (Nat.ltb_spec fa (S fa)); [reflexivity|lia]|]. rewrite nth_upd_ne by auto. rewrite I by auto. destruct (Nat.ltb_spec fa' fa), (Nat.ltb_spec fa' (S fa)); try lia; reflexivity.
    + exists c. split; [exact E|]. split; [exact LC'|]. intros fa Hf. rewrite I by auto. destruct (Nat.ltb_spec fa nFas); [reflexivity|lia].
  - intros (fa & Hf & H). unfold faSt, for_. rewrite for_fold, Nat.sub_0_r. set (body := fun fa cols => _).
    assert (X : forall l c, NoDup l -> (forall k, In k l -> k < nFas /\ nth k c [] = nth k cols []) -> length c = nFas -> In fa l -> foldR body l c = Er Echeck).
    { induction l as [|k l IH]; intros c ND I L Hin; [destruct Hin|]. apply NoDup_cons_iff in ND. destruct ND as (NI & ND'). destruct (I k (or_introl eq_refl)) as (Hk & Ek). cbn [foldR]. unfold body at 1. rewrite (rd_ok c k []) by lia. cbn [bind]. rewrite Ek. rewrite faSt1_ok; [|auto|lia|apply R, nth_In; lia]. destruct (Nat.leb_spec (length (sts nFas nSfs nScs t k)) nSt) as [Q|Q]; [|reflexivity]. cbn [bind snd]. rewrite wr_ok by lia. cbn [bind]. destruct Hin as [->|Hin]; [lia|].
      apply IH; auto; [|now rewrite length_upd]. intros k' Hk'. destruct (I k' (or_intror Hk')) as (A & B). split; [exact A|]. rewrite nth_upd_ne; [exact B|]. intros ->. auto. }
    apply X; [apply seq_NoDup|intros k Hk; apply in_seq in Hk; split; [lia|reflexivity]|exact LC|apply in_seq; lia].
Qed.
Print Assumptions C103_stencils.

(** the table of tets of second order (src/sc/ibnd/SuperCell.test.cpp 28-92), with 63 for the invalid ids *)
Definition exTet : list (list nat) := [[2; 4; 1; 3]; [6; 7; 14; 0]; [0; 8; 7; 15]; [25; 0; 21; 23]; [0; 26; 22; 23]; [27; 36; 45; 20]; [28; 1; 20; 10]; [32; 38; 1; 2]; [33; 24; 2; 12]; [35; 40; 24; 54]; [29; 6; 50; 21]; [30; 25; 21; 13]; [34; 8; 25; 56]; [31; 11; 53; 58]; [1; 37; 20; 16]; [24; 39; 2; 18]; [14; 41; 47; 22]; [26; 42; 22; 19]; [15; 43; 26; 59]; [17; 44; 49; 62]; [46; 6; 5; 14]; [51; 11; 10; 3]; [48; 4; 16; 17]; [3; 4; 52; 61]; [8; 9; 15; 55]; [11; 12; 3; 57]; [4; 18; 17; 60]; [5; 63; 63; 63]; [6; 63; 63; 63]; [10; 63; 63; 63]; [11; 63; 63; 63]; [13; 63; 63; 63]; [7; 63; 63; 63]; [8; 63; 63; 63]; [12; 63; 63; 63]; [9; 63; 63; 63]; [5; 63; 63; 63]; [14; 63; 63; 63]; [7; 63; 63; 63]; [15; 63; 63; 63]; [9; 63; 63; 63]; [16; 63; 63; 63]; [17; 63; 63; 63]; [18; 63; 63; 63]; [19; 63; 63; 63]; [5; 63; 63; 63]; [20; 63; 63; 63]; [16; 63; 63; 63]; [22; 63; 63; 63]; [19; 63; 63; 63]; [10; 63; 63; 63]; [21; 63; 63; 63]; [23; 63; 63; 63]; [13; 63; 63; 63]; [9; 63; 63; 63]; [24; 63; 63; 63]; [12; 63; 63; 63]; [25; 63; 63; 63]; [13; 63; 63; 63]; [18; 63; 63; 63]; [26; 63; 63; 63]; [23; 63; 63; 63]; [19; 63; 63; 63]].
Lemma all_lt n P : forallb P (seq 0 n) = true -> forall i, i < n -> P i = true.
Proof. intros H i Hi. rewrite forallb_forall in H. apply H, in_seq. lia. Qed.
Lemma ex_table : subTable 4 9 27 exTet.
Proof.
  split; [reflexivity|]. split; [intros r H; assert (X : forallb (fun r => length r =? 4) exTet = true) by (vm_compute; reflexivity); rewrite forallb_forall in X; apply Nat.eqb_eq, X, H|].
  split.
  { assert (X : forallb (fun fa => forallb (fun sf => (adj exTet (ghost 9 27 fa sf) 0 <? 27) && existsb (fun s => adj exTet (adj exTet (ghost 9 27 fa sf) 0) s =? ghost 9 27 fa sf) (seq 0 4)) (seq 0 9)) (seq 0 4) = true) by (vm_compute; reflexivity).
    intros fa sf Hf Hs. assert (Y := all_lt _ _ (all_lt _ _ X fa Hf) sf Hs). cbv beta in Y. apply andb_prop in Y. destruct Y as (Y1 & Y2). split; [apply Nat.ltb_lt; exact Y1|]. apply existsb_exists in Y2. destruct Y2 as (s & Z1 & Z2). apply in_seq in Z1. exists s. split; [lia|]. apply Nat.eqb_eq. exact Z2. }
  split.
  { assert (X : forallb (fun fa => forallb (fun sf => forallb (fun a => forallb (fun s => if adj exTet a s =? ghost 9 27 fa sf then adj exTet (ghost 9 27 fa sf) 0 =? a else true) (seq 0 4)) (seq 0 27)) (seq 0 9)) (seq 0 4) = true) by (vm_compute; reflexivity).
    intros fa sf a s Hf Hs Ha H E. assert (Y := all_lt _ _ (all_lt _ _ (all_lt _ _ (all_lt _ _ X fa Hf) sf Hs) a Ha) s H). cbv beta in Y. rewrite E, Nat.eqb_refl in Y. apply Nat.eqb_eq. exact Y. }
  split.
  { assert (X : forallb (fun fa => forallb (fun sf => forallb (fun sf' => if adj exTet (ghost 9 27 fa sf) 0 =? adj exTet (ghost 9 27 fa sf') 0 then sf =? sf' else true) (seq 0 9)) (seq 0 9)) (seq 0 4) = true) by (vm_compute; reflexivity).
    intros fa sf sf' Hf Hs Hs' E. assert (Y := all_lt _ _ (all_lt _ _ (all_lt _ _ X fa Hf) sf Hs) sf' Hs'). cbv beta in Y. rewrite E, Nat.eqb_refl in Y. apply Nat.eqb_eq. exact Y. }
  split.
  { assert (X : forallb (fun a => forallb (fun s => if adj exTet a s <? 27 then existsb (fun s' => adj exTet (adj exTet a s) s' =? a) (seq 0 4) else true) (seq 0 4)) (seq 0 27) = true) by (vm_compute; reflexivity).
    intros a s Ha Hs L. assert (Y := all_lt _ _ (all_lt _ _ X a Ha) s Hs). cbv beta in Y. apply Nat.ltb_lt in L. rewrite L in Y. apply existsb_exists in Y. destruct Y as (s' & Z1 & Z2). apply in_seq in Z1. exists s'. split; [lia|]. apply Nat.eqb_eq. exact Z2. }
  { assert (X : forallb (fun fa => forallb (fun a => if bndb 4 9 27 exTet fa a then match cands 4 9 27 exTet fa a with _ :: _ :: _ => false | _ => true end else true) (seq 0 27)) (seq 0 4) = true) by (vm_compute; reflexivity).
    intros fa a b b' Hf (A & B & N & T & T' & AD) (A2 & B2 & N2 & T2 & T2' & AD2). assert (Y := all_lt _ _ (all_lt _ _ X fa Hf) a A). cbv beta in Y. apply bndb_ok in T. rewrite T in Y.
    assert (I : In b (cands 4 9 27 exTet fa a)) by (apply cands_in; auto). assert (I' : In b' (cands 4 9 27 exTet fa a)) by (apply cands_in; auto). destruct (cands 4 9 27 exTet fa a) as [|x [|y l]]; [destruct I| |discriminate]. destruct I as [<-|[]]. destruct I' as [<-|[]]. reflexivity. }
Qed.
Example C103_stencils_ex : subTable 4 9 27 exTet /\ faSt true 4 9 27 3 exTet (repeat (repeat (0, 0) 3) 4) = Ok [[(6, 10); (11, 13); (8, 12)]; [(14, 16); (15, 18); (17, 19)]; [(5, 20); (16, 22); (10, 21)]; [(9, 24); (12, 25); (18, 26)]] /\ faSt true 4 9 27 2 exTet (repeat (repeat (0, 0) 3) 4) = Er Echeck.
Proof. split; [exact ex_table|]. split; vm_compute; reflexivity. Qed.

(** Applying stencils keeps the sum of every quantity over the sub-cells, for every fused simulation; sub-cells may be part of several stencils. *)
Theorem C103_conserve : forall nScs nSt nQts nCrs col dofs, length dofs = nQts -> (forall d, In d dofs -> plane nScs nCrs d) -> nSt <= length col -> (forall a b, In (a, b) (firstn nSt col) -> a < nScs /\ b < nScs /\ a <> b) ->
  exists dofs', applyFa true nSt nQts nCrs col dofs = Ok dofs' /\ length dofs' = nQts /\ forall qt cr, qt < nQts -> cr < nCrs -> plane nScs nCrs (nth qt dofs' []) /\ (sumQ nScs (fun sc => dof (nth qt dofs' []) sc cr) == sumQ nScs (fun sc => dof (nth qt dofs []) sc cr))%Q.
Proof.
  intros nScs nSt nQts nCrs col dofs L P HC R. destruct (apply_ok nScs nSt nQts nCrs col dofs L P HC) as (ds & E & L' & I); [intros (a & b) H; destruct (R a b H) as (A & B & _); split; auto|]. exists ds. split; [exact E|]. split; [exact L'|]. intros qt cr Hq Hc. destruct (I qt Hq) as (I1 & I2). split; [exact I1|].
  apply (fold_sum nScs nCrs cr Hc (firstn nSt col)); auto; [apply P, nth_In; lia|]. intros (a & b) H. destruct (R a b H) as (A & B & N). split; [split; auto|auto].
Qed.
Print Assumptions C103_conserve.
Example C103_conserve_ex : applyFa true 2 1 2 [(0, 2); (2, 1)] [[[1; 10]; [2; 20]; [4; 40]]]%Q = Ok [[[10 # 4; 100 # 4]; [36 # 16; 360 # 16]; [36 # 16; 360 # 16]]]%Q.
Proof. vm_compute. reflexivity. Qed.

(** Applying stencils introduces no new extrema. *)
Theorem C103_bounds : forall nScs nSt nQts nCrs col dofs, length dofs = nQts -> (forall d, In d dofs -> plane nScs nCrs d) -> nSt <= length col -> (forall a b, In (a, b) (firstn nSt col) -> a < nScs /\ b < nScs) ->
  exists dofs', applyFa true nSt nQts nCrs col dofs = Ok dofs' /\ forall qt cr lo hi, qt < nQts -> cr < nCrs -> (forall sc, sc < nScs -> (lo <= dof (nth qt dofs []) sc cr <= hi)%Q) -> forall sc, sc < nScs -> (lo <= dof (nth qt dofs' []) sc cr <= hi)%Q.
Proof.
  intros nScs nSt nQts nCrs col dofs L P HC R. destruct (apply_ok nScs nSt nQts nCrs col dofs L P HC) as (ds & E & L' & I); [intros (a & b) H; destruct (R a b H) as (A & B); split; auto|]. exists ds. split; [exact E|]. intros qt cr lo hi Hq Hc H. destruct (I qt Hq) as (I1 & I2).
  apply (fold_bounds nScs nCrs cr lo hi Hc (firstn nSt col) (nth qt dofs [])); auto; [apply P, nth_In; lia|]. intros (a & b) Hp. destruct (R a b Hp). split; auto.
Qed.
Print Assumptions C103_bounds.
Example C103_bounds_ex : plane 3 2 [[1; 10]; [2; 20]; [4; 40]]%Q /\ applyFa true 1 1 2 [(0, 2)] [[[1; 10]; [2; 20]; [4; 40]]]%Q = Ok [[[10 # 4; 100 # 4]; [2; 20]; [10 # 4; 100 # 4]]]%Q.
Proof. split; [split; [reflexivity|intros r [<-|[<-|[<-|[]]]]; reflexivity]|vm_compute; reflexivity]. Qed.

(** Disjoint stencils set both sub-cells to the average of the two and leave all others unchanged. *)
Theorem C103_average : forall nScs nSt nQts nCrs col dofs, length dofs = nQts -> (forall d, In d dofs -> plane nScs nCrs d) -> nSt <= length col -> (forall a b, In (a, b) (firstn nSt col) -> a < nScs /\ b < nScs) -> NoDup (members (firstn nSt col)) ->
  exists dofs', applyFa true nSt nQts nCrs col dofs = Ok dofs' /\ length dofs' = nQts /\ forall qt cr, qt < nQts -> cr < nCrs ->
  (forall a b, In (a, b) (firstn nSt col) -> (dof (nth qt dofs' []) a cr == (dof (nth qt dofs []) a cr + dof (nth qt dofs []) b cr) / 2)%Q /\ dof (nth qt dofs' []) b cr = dof (nth qt dofs' []) a cr) /\
  forall sc, ~ In sc (members (firstn nSt col)) -> dof (nth qt dofs' []) sc cr = dof (nth qt dofs []) sc cr.
Proof.
  intros nScs nSt nQts nCrs col dofs L P HC R ND. assert (RG : forall p, In p (firstn nSt col) -> inRange nScs p) by (intros (a & b) H; destruct (R a b H); split; auto). destruct (apply_ok nScs nSt nQts nCrs col dofs L P HC RG) as (ds & E & L' & I). exists ds. split; [exact E|]. split; [exact L'|]. intros qt cr Hq Hc. destruct (I qt Hq) as (I1 & I2).
  destruct (fold_avg nScs nCrs cr Hc (firstn nSt col) (nth qt dofs []) (nth qt ds [])) as (F1 & F2); auto; [apply P, nth_In; lia|]. split; [|exact F2]. intros a b H. destruct (F1 a b H) as (G1 & G2). split; [|exact G2]. rewrite G1. field.
Qed.
Print Assumptions C103_average.
Example C103_average_ex : NoDup (members [(6, 10); (11, 13); (8, 12)]) /\ applyFa true 1 2 1 [(0, 1); (5, 5)] [[[1]; [3]]; [[2]; [6]]]%Q = Ok [[[8 # 4]; [8 # 4]]; [[16 # 4]; [16 # 4]]]%Q.
Proof. split; [repeat constructor; cbn; lia|vm_compute; reflexivity]. Qed.

(** Set-up and application together: if every face has exactly as many pairs as stencils, the stencils of a face average all pairs of adjacent sub-cells at the face, and leave all other sub-cells unchanged. *)
Theorem C103_super : forall nFas nSfs nScs nSt nQts nCrs t cols fa dofs, subTable nFas nSfs nScs t -> length cols = nFas -> (forall col, In col cols -> nSt <= length col) -> fa < nFas -> length dofs = nQts -> (forall d, In d dofs -> plane nScs nCrs d) ->
  (forall fa, fa < nFas -> exists l, length l = nSt /\ NoDup l /\ forall p, In p l <-> pair nFas nSfs nScs t fa (fst p) (snd p) /\ fst p < snd p) ->
  exists cols' dofs', faSt true nFas nSfs nScs nSt t cols = Ok cols' /\ applyFa true nSt nQts nCrs (nth fa cols' []) dofs = Ok dofs' /\ forall qt cr, qt < nQts -> cr < nCrs ->
  (forall a b, pair nFas nSfs nScs t fa a b -> (dof (nth qt dofs' []) a cr == (dof (nth qt dofs []) a cr + dof (nth qt dofs []) b cr) / 2)%Q) /\
  forall sc, (forall b, ~ pair nFas nSfs nScs t fa sc b) -> dof (nth qt dofs' []) sc cr = dof (nth qt dofs []) sc cr.
Proof.
  intros nFas nSfs nScs nSt nQts nCrs t cols fa dofs TB LC RC Hf LD PD CNT. destruct (C103_stencils nFas nSfs nScs nSt t cols TB LC RC) as (sts & S & OKS & _).
  assert (LN : forall fa, fa < nFas -> length (sts fa) = nSt).
  { intros f Hf'. destruct (S f Hf') as (S1 & S2). destruct (CNT f Hf') as (l & L1 & L2 & L3). assert (ND : NoDup (sts f)).
    { clear -S2. induction (sts f) as [|p l IH]; [constructor|]. unfold members in S2. cbn [flat_map app] in S2. inversion S2 as [|? ? N1 N2]; subst. inversion N2 as [|? ? N3 N4]; subst. constructor; [|apply IH; exact N4]. intros H. apply N1. right. apply in_flat_map. exists p. split; [exact H|left; reflexivity]. }
    rewrite <- L1. apply Nat.le_antisymm; apply NoDup_incl_length; auto; intros (a & b) H; [apply L3; cbn [fst snd]; apply S1; exact H|apply S1; apply L3 in H; exact H]. }
  destruct OKS as (cols' & E & L' & N); [intros f Hf'; rewrite LN by auto; lia|]. exists cols'. destruct (S fa Hf) as (S1 & S2).
  assert (FN : firstn nSt (nth fa cols' []) = sts fa) by (rewrite N by auto; rewrite <- (LN fa Hf), firstn_app, Nat.sub_diag, firstn_all; cbn [firstn]; apply app_nil_r).
  destruct (C103_average nScs nSt nQts nCrs (nth fa cols' []) dofs LD PD) as (dofs' & E' & _ & A).
  - rewrite N by auto. rewrite app_length. rewrite LN by auto. lia.
  - rewrite FN. intros a b H. apply S1 in H. destruct H as ((A & B & _) & _). auto.
  - rewrite FN. exact S2.
  - exists dofs'. split; [exact E|]. split; [exact E'|]. intros qt cr Hq Hc. destruct (A qt cr Hq Hc) as (A1 & A2). rewrite FN in A1, A2. split.
    + intros a b Pab. destruct (Nat.lt_trichotomy a b) as [H|[H|H]].
      * apply A1. apply S1. auto.
      * destruct Pab as (_ & _ & NE & _). contradiction.
      * assert (Pba := pair_sym _ _ _ _ TB _ _ _ Pab). destruct (A1 b a) as (X & Y); [apply S1; auto|]. rewrite Y, X. field.
    + intros sc H. apply A2. intros Q. apply in_flat_map in Q. destruct Q as ((a & b) & Q1 & Q2). apply S1 in Q1. destruct Q1 as (Pab & _). destruct Q2 as [<-|[<-|[]]]; [apply (H b); exact Pab|apply (H a); apply (pair_sym _ _ _ _ TB); exact Pab].
Qed.
Print Assumptions C103_super.
Example C103_super_ex : subTable 4 9 27 exTet /\ forall fa, fa < 4 -> exists l, length l = 3 /\ NoDup l /\ forall p, In p l <-> pair 4 9 27 exTet fa (fst p) (snd p) /\ fst p < snd p.
Proof.
  split; [exact ex_table|]. intros fa Hf. exists (sts 4 9 27 exTet fa). split; [destruct fa as [|[|[|[|fa]]]]; try lia; vm_compute; reflexivity|]. split; [|intros (a & b); apply sts_in; [exact ex_table|exact Hf]].
  destruct fa as [|[|[|[|fa]]]]; try lia; vm_compute; repeat constructor; cbn; intuition discriminate.
Qed.
