(** Sub-grids of lines: the tables are those of a lattice. *)
From Coq Require Import List Arith Bool ZArith QArith Qreals Qabs Reals Lra Lia.
From Verif Require Import ElSpec ElWave ScProjSpec ScProjL ScQuadSpec ScLine ScLineSpec.
Import ListNotations.
Open Scope nat_scope.

(** ** Vertices *)
Lemma Q2R_frac k n : 0 < n -> Q2R (frac k n) = (INR k / INR n)%R.
Proof.
  intros H. unfold frac. rewrite Q2R_div by (unfold Qeq; cbn; lia). unfold Q2R. cbn [Qnum Qden inject_Z]. rewrite !INR_IZR_INZ. rewrite Rinv_1, !Rmult_1_r. reflexivity.
Qed.
Lemma frac_one k n : 0 < n -> Qeq_bool (frac k n) 1 = (k =? n).
Proof.
  intros H. destruct (Nat.eqb_spec k n) as [->|A].
  - apply Qeq_bool_iff. unfold frac. field. unfold Qeq. cbn. lia.
  - destruct (Qeq_bool (frac k n) 1) eqn:E; [|reflexivity]. exfalso. apply A. apply Qeq_bool_iff in E. assert (Z : (inject_Z (Z.of_nat k) == frac k n * inject_Z (Z.of_nat n))%Q) by (unfold frac; field; unfold Qeq; cbn; lia). rewrite E, Qmult_1_l in Z. unfold Qeq in Z. cbn in Z. lia.
Qed.
Lemma frac_S k n : 0 < n -> (frac k n + (1 - 0) / inject_Z (Z.of_nat n) == frac (S k) n)%Q.
Proof. intros H. unfold frac. rewrite Nat2Z.inj_succ. unfold Z.succ. rewrite inject_Z_plus. field. unfold Qeq. cbn. lia. Qed.
Lemma loop_ok deg : let n := nScs deg in forall d k fuel last l, d + k = n -> d < fuel -> (last == frac k n)%Q ->
  exists m, svsLoop fuel (incL deg) last l = Some (l ++ m) /\ length m = d /\ forall i, i < d -> (nth i m 0 == frac (k + i + 1) n)%Q.
Proof.
  cbv zeta. assert (Hn : 0 < nScs deg) by (unfold nScs; lia). induction d as [|d IH]; intros k fuel last l E F L; (destruct fuel as [|fuel]; [lia|]); cbn [svsLoop]; (assert (QB : Qeq_bool last 1 = Qeq_bool (frac k (nScs deg)) 1) by (rewrite L; reflexivity)); rewrite QB, frac_one by auto.
  - rewrite (proj2 (Nat.eqb_eq _ _)) by lia. exists []. rewrite app_nil_r. repeat split; auto. intros; lia.
  - destruct (Nat.eqb_spec k (nScs deg)); [lia|]. assert (Q1 : (last + incL deg == frac (S k) (nScs deg))%Q) by (rewrite L; unfold incL; apply frac_S; auto).
    destruct (IH (S k) fuel (last + incL deg)%Q (l ++ [(last + incL deg)%Q]) ltac:(lia) ltac:(lia) Q1) as (m & A & B & C). exists ((last + incL deg)%Q :: m). rewrite A, <- app_assoc. cbn [app length]. repeat split; auto.
    intros [|i] Hi; cbn [nth]; [rewrite Q1; replace (k + 0 + 1) with (S k) by lia; reflexivity|]. rewrite C by lia. replace (S k + i + 1) with (k + S i + 1) by lia. reflexivity.
Qed.
Lemma svs_ok fuel deg : nScs deg < fuel -> exists l, svsL fuel deg = Some l /\ length l = S (nScs deg) /\ forall i, i <= nScs deg -> exists q, nth_error l i = Some q /\ (q == frac i (nScs deg))%Q.
Proof.
  intros F. assert (Hn : 0 < nScs deg) by (unfold nScs; lia). destruct (loop_ok deg (nScs deg) 0 fuel 0%Q [0%Q] ltac:(lia) F) as (m & A & B & C); [unfold frac; field; unfold Qeq; cbn; lia|].
  exists ([0%Q] ++ m). split; [exact A|]. split; [cbn [app length]; lia|]. intros [|i] Hi; [exists 0%Q; split; [reflexivity|unfold frac; field; unfold Qeq; cbn; lia]|]. cbn [app nth_error]. exists (nth i m 0%Q). split; [apply nth_error_nth'; lia|]. rewrite C by lia. replace (0 + i + 1) with (S i) by lia. reflexivity.
Qed.

(** ** Tables *)
Lemma zrange_nth a b i : (Z.of_nat i < b - a)%Z -> nth_error (zrange a b) i = Some (a + Z.of_nat i)%Z.
Proof. intros H. unfold zrange. rewrite nth_error_map. rewrite (nth_error_nth' _ 0) by (rewrite seq_length; lia). rewrite seq_nth by lia. reflexivity. Qed.
Lemma zrange_len a b : length (zrange a b) = Z.to_nat (b - a). Proof. unfold zrange. rewrite map_length, seq_length. reflexivity. Qed.
Lemma upd_len {A} (l : list A) f : forall i, length (upd l i f) = length l. Proof. induction l; intros [|i]; cbn; auto. Qed.
Lemma upd_nth {A} (l : list A) f : forall i j, nth_error (upd l i f) j = if i =? j then option_map f (nth_error l j) else nth_error l j.
Proof. induction l as [|x l IH]; intros [|i] [|j]; cbn; auto. destruct (i =? j); reflexivity. Qed.
(** inner, first or last sub-cell *)
Lemma cases3 deg c : c < nScs (S deg) -> let n := nScs (S deg) in (c < n - 2 /\ lineCell n c = S c) \/ (c = n - 2 /\ lineCell n c = 0) \/ (c = n - 1 /\ lineCell n c = n - 1).
Proof. cbv zeta. unfold lineCell. intros H. assert (3 <= nScs (S deg)) by (unfold nScs; lia). destruct (Nat.ltb_spec c (nScs (S deg) - 2)); [auto|]. right. destruct (Nat.eqb_spec c (nScs (S deg) - 1)); [auto|left]. lia. Qed.
Lemma nth_error_tail {A} (l m : list A) k n : length l = n -> nth_error (l ++ m) (n + k) = nth_error m k.
Proof. intros <-. rewrite nth_error_app2 by lia. f_equal. lia. Qed.
Lemma sv_ok deg c : c < nScs deg -> let '(i, s, _) := scSvL deg in nth_error (i ++ s) c = Some [Z.of_nat (lineCell (nScs deg) c); Z.of_nat (lineCell (nScs deg) c) + 1]%Z.
Proof.
  intros H. destruct deg as [|deg]; [unfold nScs in H; assert (c = 0) by lia; subst; reflexivity|]. assert (N3 : 3 <= nScs (S deg)) by (unfold nScs; lia). unfold scSvL. cbn [Nat.eqb]. set (n := nScs (S deg)) in *.
  assert (L : length (map (fun sc => [sc; sc + 1]%Z) (zrange 1 (Z.of_nat n - 1))) = n - 2) by (rewrite map_length, zrange_len; lia).
  destruct (cases3 deg c H) as [(A & E)|[(A & E)|(A & E)]]; fold n in A, E; rewrite E.
  - rewrite nth_error_app1 by lia. rewrite nth_error_map, zrange_nth by lia. cbn [option_map]. f_equal. f_equal; [lia|f_equal; lia].
  - replace c with (n - 2 + 0) by lia. rewrite (nth_error_tail _ _ 0 _ L). reflexivity.
  - replace c with (n - 2 + 1) by lia. rewrite (nth_error_tail _ _ 1 _ L). cbn [nth_error]. f_equal. f_equal; [lia|f_equal; lia].
Qed.
Lemma cell_at n c : lineCell n c = 0 \/ 0 < lineCell n c. Proof. lia. Qed.
Lemma lineCell_first n : 3 <= n -> lineCell n (n - 2) = 0. Proof. intros. unfold lineCell. rewrite Nat.ltb_irrefl. destruct (Nat.eqb_spec (n - 2) (n - 1)); lia. Qed.
Lemma lineCell_last n : 3 <= n -> lineCell n (n - 1) = n - 1. Proof. intros. unfold lineCell. destruct (Nat.ltb_spec (n - 1) (n - 2)); [lia|]. rewrite Nat.eqb_refl. reflexivity. Qed.
Lemma lineCell_inner n c : c < n - 2 -> lineCell n c = S c. Proof. intros. unfold lineCell. destruct (Nat.ltb_spec c (n - 2)); lia. Qed.
Lemma inner_len deg : let '(i, s, r) := scSfScL (S deg) in length i = nScs (S deg) - 2.
Proof. unfold scSfScL. cbn [Nat.eqb]. rewrite !upd_len, map_length, zrange_len. unfold nScs. lia. Qed.
Lemma sfsc_ok deg c : c < nScs deg -> exists l r, nth_error (rows3 (scSfScL deg)) c = Some [l; r] /\ onLeft (nScs deg) c l /\ onRight (nScs deg) c r.
Proof.
  intros H. destruct deg as [|deg]; [unfold nScs in H; assert (c = 0) by lia; subst; exists 1%Z, 2%Z; repeat split|]. assert (N3 : 3 <= nScs (S deg)) by (unfold nScs; lia). assert (L := inner_len deg). unfold scSfScL in L |- *. cbn [Nat.eqb] in L |- *. set (n := nScs (S deg)) in *. cbv zeta in L |- *. unfold rows3, onLeft, onRight.
  set (i2 := upd _ _ _) in L |- *. destruct (cases3 deg c H) as [(A & E)|[(A & E)|(A & E)]]; fold n in A, E; rewrite E.
  - rewrite nth_error_app1 by lia. assert (I : nth_error i2 c = Some [if c =? 0 then (Z.of_nat n - 2)%Z else (Z.of_nat c - 1)%Z; if c =? n - 3 then (Z.of_nat n - 1)%Z else (Z.of_nat c + 1)%Z]).
    { unfold i2. rewrite !upd_nth, !upd_len, nth_error_map, zrange_nth, map_length, zrange_len by lia. replace (Z.to_nat (Z.of_nat n - 2 - 0) - 1) with (n - 3) by lia. rewrite (Nat.eqb_sym (n - 3)), (Nat.eqb_sym 0). destruct (c =? n - 3), (c =? 0); cbn [option_map upd]; repeat (f_equal; try lia). }
    rewrite I. do 2 eexists. split; [reflexivity|]. split.
    + destruct (Nat.eqb_spec c 0) as [->|B]; [exists (n - 2); rewrite lineCell_first by auto; lia|]. exists (c - 1). rewrite lineCell_inner by lia. lia.
    + destruct (Nat.eqb_spec (S (S c)) n); [lia|]. destruct (Nat.eqb_spec c (n - 3)) as [B|B]; [exists (n - 1); rewrite lineCell_last by auto; lia|]. exists (S c). rewrite lineCell_inner by lia. lia.
  - replace c with (n - 2 + 0) by lia. rewrite (nth_error_tail _ _ 0 _ L). do 2 eexists. split; [reflexivity|]. split; [reflexivity|]. destruct (Nat.eqb_spec 1 n); [lia|]. exists 0. rewrite lineCell_inner by lia. lia.
  - replace c with (n - 2 + 1) by lia. rewrite (nth_error_tail _ _ 1 _ L). do 2 eexists. split; [reflexivity|]. split; [|destruct (Nat.eqb_spec (S (n - 1)) n); [reflexivity|lia]]. destruct (n - 1) as [|p] eqn:P; [lia|]. exists (n - 3). rewrite lineCell_inner by lia. lia.
Qed.
Lemma ghost_ok deg fa : fa < 2 -> let n := nScs deg in exists c, c < n /\ lineCell n c = endCell n fa /\ nth_error (rows3 (scSfScL deg)) (n + fa) = Some [Z.of_nat c; -1]%Z /\ nth_error (snd (scSfScL deg)) fa = Some [Z.of_nat c; -1]%Z.
Proof.
  cbv zeta. intros H. destruct deg as [|deg]; [exists 0; destruct fa as [|[|fa]]; [| |lia]; repeat split; unfold nScs; lia|]. assert (N3 : 3 <= nScs (S deg)) by (unfold nScs; lia). assert (L := inner_len deg). unfold scSfScL in L |- *. cbn [Nat.eqb] in L |- *. set (n := nScs (S deg)) in *. cbv zeta in L |- *. unfold rows3.
  set (i2 := upd _ _ _) in L |- *. replace (n + fa) with (n - 2 + (2 + fa)) by lia. rewrite (nth_error_tail _ _ (2 + fa) _ L). cbn [snd].
  destruct fa as [|[|fa]]; [exists (n - 2); rewrite lineCell_first by auto|exists (n - 1); rewrite lineCell_last by auto|lia]; cbn [plus app nth_error endCell]; repeat split; try lia; repeat (f_equal; try lia).
Qed.
Lemma len_sfsc deg : length (rows3 (scSfScL deg)) = nScs deg + 2.
Proof. destruct deg as [|deg]; [reflexivity|]. assert (L := inner_len deg). destruct (scSfScL (S deg)) as [[i s] r] eqn:E. unfold rows3. rewrite !app_length, L. unfold scSfScL in E. cbn [Nat.eqb] in E. injection E as <- <- <-. cbn [length]. unfold nScs. lia. Qed.
Lemma ty_ok deg c : c < nScs deg -> nth_error (rows2 (scTySfL deg)) c = Some [if lineCell (nScs deg) c =? 0 then 0 else 4; if S (lineCell (nScs deg) c) =? nScs deg then 1 else 5].
Proof.
  intros H. destruct deg as [|deg]; [unfold nScs in H; assert (c = 0) by lia; subst; reflexivity|]. assert (N3 : 3 <= nScs (S deg)) by (unfold nScs; lia). unfold scTySfL, rows2. change (S deg =? 0) with false. cbn [fst snd]. set (n := nScs (S deg)) in *.
  assert (L : length (map (fun _ : nat => [4; 5]) (seq 0 (n - 2))) = n - 2) by (rewrite map_length, seq_length; auto). destruct (cases3 deg c H) as [(A & E)|[(A & E)|(A & E)]]; fold n in A, E; rewrite E.
  - rewrite nth_error_app1 by lia. rewrite nth_error_map, (nth_error_nth' _ 0) by (rewrite seq_length; lia). destruct (Nat.eqb_spec (S (S c)) n); [lia|reflexivity].
  - replace c with (n - 2 + 0) by lia. rewrite (nth_error_tail _ _ 0 _ L). destruct (Nat.eqb_spec 1 n); [lia|reflexivity].
  - replace c with (n - 2 + 1) by lia. rewrite (nth_error_tail _ _ 1 _ L). cbn [nth_error]. destruct (Nat.eqb_spec (n - 1) 0); [lia|]. destruct (Nat.eqb_spec (S (n - 1)) n); [reflexivity|lia].
Qed.

(** ** Maps *)
Lemma mapO_ok {A B} (f : A -> option B) l : (forall x, In x l -> exists y, f x = Some y) -> exists l', mapO f l = Some l' /\ length l' = length l /\ forall i x, nth_error l i = Some x -> exists y, nth_error l' i = Some y /\ f x = Some y.
Proof.
  induction l as [|a l IH]; intros H; [exists []; repeat split; auto; intros [|i] x E; discriminate|]. destruct (H a (or_introl eq_refl)) as (y & E). destruct IH as (l' & E' & L & N); [intros x I; apply H; right; exact I|].
  exists (y :: l'). cbn [mapO]. rewrite E, E'. repeat split; [cbn; lia|]. intros [|i] x Q; cbn in Q |- *; [injection Q as <-; exists y; auto|apply N; exact Q].
Qed.
Lemma map_ok deg svs k : k < nScs deg -> length svs = S (nScs deg) -> (forall i, i <= nScs deg -> exists q, nth_error svs i = Some q /\ (q == frac i (nScs deg))%Q) ->
  exists m, mapOf svs [Z.of_nat k; Z.of_nat k + 1]%Z = Some m /\ (forall x, peval (map Q2R m) x = ((INR k + x) / INR (nScs deg))%R) /\ Q2R (absJacDet m) = (/ INR (nScs deg))%R.
Proof.
  intros H L V. assert (Hn : 0 < nScs deg) by lia. assert (NP : (0 < INR (nScs deg))%R) by (apply lt_0_INR; auto). destruct (V k ltac:(lia)) as (a & Ea & Qa). destruct (V (S k) ltac:(lia)) as (b & Eb & Qb).
  assert (Ra : Q2R a = (INR k / INR (nScs deg))%R) by (rewrite <- Q2R_frac by auto; apply Qeq_eqR; auto). assert (Rb : Q2R b = ((INR k + 1) / INR (nScs deg))%R) by (rewrite <- S_INR, <- Q2R_frac by auto; apply Qeq_eqR; auto).
  unfold mapOf. cbn [mapO]. unfold pyNth. destruct (Z.ltb_spec (Z.of_nat k) 0); [lia|]. destruct (Z.ltb_spec (Z.of_nat k + 1) 0); [lia|]. rewrite Nat2Z.id. replace (Z.to_nat (Z.of_nat k + 1)) with (S k) by lia. rewrite Ea, Eb. cbn [bindO]. eexists. split; [reflexivity|].
  assert (R1 : Q2R 1 = 1%R) by (unfold Q2R; cbn; field). assert (R0 : Q2R 0 = 0%R) by (unfold Q2R; cbn; field).
  unfold shapes, qscal. cbn [combine fold_left qadd map fst snd]. split.
  - intros x. unfold peval. cbn [fold_right]. rewrite ?Q2R_plus, ?Q2R_mult, ?Q2R_opp, ?R1, ?R0, Ra, Rb. field. lra.
  - unfold absJacDet. cbn [nth]. rewrite (Qeq_eqR _ (a * - (1) + b * 1)); [rewrite Q2R_plus, !Q2R_mult, Q2R_opp, R1, Ra, Rb; field; lra|]. apply Qabs_pos. apply Rle_Qle. rewrite Q2R_plus, !Q2R_mult, Q2R_opp, R1, R0, Ra, Rb. replace (INR k / INR (nScs deg) * - (1) + (INR k + 1) / INR (nScs deg) * 1)%R with (/ INR (nScs deg))%R by (field; lra). left. apply Rinv_0_lt_compat. exact NP.
Qed.
Lemma in_rows deg row : let '(i, s, _) := scSvL deg in In row (i ++ s) -> exists k, k < nScs deg /\ row = [Z.of_nat k; Z.of_nat k + 1]%Z.
Proof.
  assert (Q := sv_ok deg). assert (LN : let '(i, s, _) := scSvL deg in length (i ++ s) = nScs deg) by (destruct deg as [|deg]; [reflexivity|]; unfold scSvL; cbn [Nat.eqb]; rewrite app_length, map_length, zrange_len; unfold nScs; cbn [length]; lia).
  destruct (scSvL deg) as [[i s] r]. intros I. apply In_nth_error in I. destruct I as (c & E). assert (Hc : c < nScs deg) by (rewrite <- LN; apply nth_error_Some; rewrite E; discriminate). assert (Qc := Q c Hc). cbv beta iota in Qc. rewrite Qc in E. injection E as <-. exists (lineCell (nScs deg) c). split; [apply lineCell_lt; exact Hc|reflexivity].
Qed.
Lemma nth_error_2 {A B} (P : A -> B -> Prop) i s mi ms : length mi = length i -> (forall c x, nth_error i c = Some x -> exists y, nth_error mi c = Some y /\ P x y) -> (forall c x, nth_error s c = Some x -> exists y, nth_error ms c = Some y /\ P x y) ->
  forall c x, nth_error (i ++ s) c = Some x -> exists y, nth_error (mi ++ ms) c = Some y /\ P x y.
Proof. intros L A1 A2 c x E. destruct (Nat.lt_ge_cases c (length i)); [rewrite nth_error_app1 in E |- * by lia; auto|rewrite nth_error_app2 in E |- * by lia; rewrite L; auto]. Qed.
Lemma int_ok fuel deg : let n := nScs deg in n < fuel -> exists mi ms mr di ds dr, intScL fuel deg = Some ((mi, ms, mr), (di, ds, dr)) /\
  (forall c, c < n -> exists m d, nth_error (mi ++ ms) c = Some m /\ nth_error (di ++ ds) c = Some d /\ (forall x, peval (map Q2R m) x = lineMap n c x) /\ Q2R d = (/ INR n)%R) /\
  (forall fa, fa < 2 -> exists c m d, c < n /\ lineCell n c = endCell n fa /\ nth_error (mi ++ ms) c = Some m /\ nth_error (di ++ ds) c = Some d /\ nth_error mr fa = Some [m] /\ nth_error dr fa = Some [d]).
Proof.
  cbv zeta. intros F. destruct (svs_ok fuel deg F) as (svs & ES & LS & VS). assert (SV := sv_ok deg). assert (IR := in_rows deg). assert (GH := ghost_ok deg). unfold intScL. rewrite ES. cbn [bindO]. destruct (scSvL deg) as [[i s] r0]. destruct (scSfScL deg) as [[i0 s0] r]. cbn [snd] in GH. unfold genIntSc.
  assert (D : forall row, In row (i ++ s) -> exists m, mapOf svs row = Some m) by (intros row I; destruct (IR row I) as (k & Hk & ->); destruct (map_ok deg svs k Hk LS VS) as (m & E & _); exists m; exact E).
  destruct (mapO_ok (mapOf svs) i) as (mi & Ei & Li & Ni); [intros; apply D; apply in_or_app; auto|]. destruct (mapO_ok (mapOf svs) s) as (ms & Em & Lm & Nm); [intros; apply D; apply in_or_app; auto|]. rewrite Ei, Em. cbn [bindO].
  assert (M : forall c, c < nScs deg -> exists m, nth_error (mi ++ ms) c = Some m /\ nth_error (map absJacDet mi ++ map absJacDet ms) c = Some (absJacDet m) /\ (forall x, peval (map Q2R m) x = lineMap (nScs deg) c x) /\ Q2R (absJacDet m) = (/ INR (nScs deg))%R).
  { intros c Hc. destruct (nth_error_2 (fun x y => mapOf svs x = Some y) i s mi ms Li Ni Nm c _ (SV c Hc)) as (m & E1 & E2). destruct (map_ok deg svs (lineCell (nScs deg) c) (lineCell_lt _ _ Hc) LS VS) as (m' & E3 & P & J). rewrite E3 in E2. injection E2 as ->. exists m. split; [exact E1|]. split; [rewrite <- map_app, nth_error_map, E1; reflexivity|]. split; [exact P|exact J]. }
  destruct (GH 0 ltac:(lia)) as (c0 & H0 & P0 & _ & G0). destruct (GH 1 ltac:(lia)) as (c1 & H1 & P1 & _ & G1). destruct (M c0 H0) as (m0 & A0 & B0 & _ & _). destruct (M c1 H1) as (m1 & A1 & B1 & _ & _).
  unfold nFas, nSfsL. cbn [seq mapO Nat.mul Nat.add]. rewrite G0, G1. cbn [bindO nth_error]. unfold pyNth. destruct (Z.ltb_spec (Z.of_nat c0) 0); [lia|]. destruct (Z.ltb_spec (Z.of_nat c1) 0); [lia|]. rewrite !Nat2Z.id, A0, A1, B0, B1. cbn [bindO].
  do 6 eexists. split; [reflexivity|]. split.
  - intros c Hc. destruct (M c Hc) as (m & Q). exists m, (absJacDet m). exact Q.
  - intros [|[|fa]] Hf; [exists c0, m0, (absJacDet m0)|exists c1, m1, (absJacDet m1)|lia]; auto 10.
Qed.
