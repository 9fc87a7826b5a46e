(** Properties of the time groups: C25, C26. *)
From Coq Require Import QArith Qminmax Lqa.
From Verif Require Import Util Groups.
Open Scope nat_scope.

(** * Specification *)

(** Element [ad] is adjacent to [el] via a face. *)
Definition adj (nElFas : nat) (elFaEl : list (option nat)) (el ad : nat) : Prop :=
  exists fa, fa < nElFas /\ nth_error elFaEl (el * nElFas + fa) = Some (Some ad).

Definition mesh_ok (nElFas nEls : nat) (elFaEl : list (option nat)) : Prop :=
  length elFaEl = nEls * nElFas /\ (forall el ad, el < nEls -> adj nElFas elFaEl el ad -> ad < nEls) /\
  (forall el ad, adj nElFas elFaEl el ad -> adj nElFas elFaEl ad el).

(** [g] does not exceed [init] and differs by at most one between adjacent elements. *)
Definition admissible (nElFas nEls : nat) (elFaEl : list (option nat)) (init g : nat -> nat) : Prop :=
  (forall el, el < nEls -> g el <= init el) /\
  (forall el ad, el < nEls -> adj nElFas elFaEl el ad -> g el <= g ad + 1 /\ g ad <= g el + 1).

Definition at_ (l : list nat) (i : nat) : nat := nth i l 0.

(** * Proofs *)

Lemma list_sum_upd (l : list nat) i v : i < length l -> list_sum (upd l i v) + nth i l 0 = list_sum l + v.
Proof.
  revert i. induction l as [|x l IH]; intros [|i] H; cbn [length] in H; try lia; cbn [upd nth]; change (list_sum (?a :: ?b)) with (a + list_sum b); [|specialize (IH i)]; lia.
Qed.

Section Norm.
Variables (nElFas nEls : nat) (elFaEl : list (option nat)).
Hypothesis HL : length elFaEl = nEls * nElFas.
Hypothesis HA : forall el ad, el < nEls -> adj nElFas elFaEl el ad -> ad < nEls.

(** lower bounds are kept *)
Definition keeps (a b : list nat) : Prop := forall g : nat -> nat, (forall el ad, el < nEls -> adj nElFas elFaEl el ad -> g el <= g ad + 1) ->
  (forall el, el < nEls -> g el <= at_ a el) -> forall el, el < nEls -> g el <= at_ b el.

Lemma at_upd l i j v : i < length l -> at_ (upd l i v) j = if j =? i then v else at_ l j.
Proof.
  intros H. unfold at_. destruct (Nat.eqb_spec j i) as [->|N]; [now apply nth_upd_eq|now apply nth_upd_ne; auto].
Qed.

Lemma normFaces_ok el tgs it all : el < nEls -> length tgs = nEls ->
  exists tgs' k, for_ 0 nElFas (normFace nElFas elFaEl el (at_ tgs el)) (tgs, it, all) = Ok (tgs', it + k, all + k) /\
    length tgs' = nEls /\ (forall e, e < nEls -> at_ tgs' e <= at_ tgs e) /\ keeps tgs tgs' /\
    (k = 0 -> tgs' = tgs /\ forall ad, adj nElFas elFaEl el ad -> at_ tgs el <= at_ tgs ad + 1) /\
    (0 < k -> list_sum tgs' < list_sum tgs).
Proof.
  intros Hel LT.
  destruct (for_ok (fun fa s => exists k, s = (upd tgs el (at_ (fst (fst s)) el), it + k, all + k) /\
     at_ (fst (fst s)) el <= at_ tgs el /\ keeps tgs (fst (fst s)) /\ (0 < k -> at_ (fst (fst s)) el < at_ tgs el) /\
     (k = 0 -> fst (fst s) = tgs /\ forall f ad, f < fa -> nth_error elFaEl (el * nElFas + f) = Some (Some ad) -> at_ tgs el <= at_ tgs ad + 1))
     0 nElFas (normFace nElFas elFaEl el (at_ tgs el)) (tgs, it, all)) as (s' & E & k & Es & I1 & I2 & I3 & I4); [lia| | |].
  - exists 0. cbn [fst]. rewrite !Nat.add_0_r. split; [|repeat split; auto; try lia; intros g _ H; exact H].
    f_equal. f_equal. apply nth_error_ext'. intros i. destruct (Nat.eq_dec i el) as [->|N]; [rewrite nth_error_upd_eq by lia; unfold at_; apply nth_error_nth'; lia|now rewrite nth_error_upd_ne by auto].
  - intros fa ((tgs1 & it1) & all1) Hfa (k & Es & I1 & I2 & I3 & I4). cbn [fst] in *. inversion Es as [[X1 X2 X3]]. set (v := at_ tgs1 el) in *. clearbody v. subst tgs1 it1 all1. clear Es. unfold normFace.
    assert (FL : el * nElFas + fa < length elFaEl) by nia.
    destruct (nth_error elFaEl (el * nElFas + fa)) as [o|] eqn:Eo; [|apply nth_error_None in Eo; lia]. rewrite (rd_some _ _ _ Eo). cbn [bind].
    assert (VE : at_ (upd tgs el v) el = v) by (rewrite at_upd by lia; now rewrite Nat.eqb_refl).
    destruct o as [ad|].
    + assert (AD : adj nElFas elFaEl el ad) by (exists fa; split; [lia|auto]). pose proof (HA _ _ Hel AD).
      rewrite (rd_ok _ _ 0) by (rewrite length_upd; lia). cbn [bind]. fold (at_ (upd tgs el v) ad). destruct (Nat.ltb_spec (at_ (upd tgs el v) ad + 1) (at_ tgs el)) as [L|L].
      * set (w := at_ (upd tgs el v) ad + 1) in *. rewrite wr_ok by (rewrite length_upd; lia). cbn [bind].
        replace (upd (upd tgs el v) el w) with (upd tgs el w) by (apply nth_error_ext'; intros i; destruct (Nat.eq_dec i el) as [->|N]; [rewrite !nth_error_upd_eq by (rewrite ?length_upd; lia); auto|rewrite !nth_error_upd_ne by auto; auto]).
        eexists. split; [reflexivity|]. exists (k + 1). cbn [fst]. rewrite !at_upd by lia. rewrite !Nat.eqb_refl. split; [now rewrite !Nat.add_assoc|]. split; [lia|]. split; [|split; [lia|lia]].
        intros g G1 G2 e He. rewrite at_upd by lia. destruct (Nat.eqb_spec e el) as [->|N].
        -- specialize (I2 g G1 G2 ad ltac:(lia)). specialize (G1 _ _ Hel AD). lia.
        -- specialize (G2 e He). lia.
      * eexists. split; [reflexivity|]. exists k. cbn [fst]. rewrite VE. split; auto. split; [lia|]. split; auto. split; auto. intros K. destruct (I4 K) as (J1 & J2). split; auto.
        intros f a Hf Ea. destruct (Nat.eq_dec f fa) as [->|N]; [|apply (J2 f); auto; lia]. assert (a = ad) as -> by congruence. rewrite J1 in L. lia.
    + eexists. split; [reflexivity|]. exists k. cbn [fst]. rewrite VE. split; auto. split; [lia|]. split; auto. split; auto. intros K. destruct (I4 K) as (J1 & J2). split; auto.
      intros f a Hf Ea. destruct (Nat.eq_dec f fa) as [->|N]; [congruence|apply (J2 f); auto; lia].
  - destruct s' as ((tgs' & it') & all'). cbn [fst] in *. inversion Es as [[X1 X2 X3]]. exists tgs', k. split; [rewrite E; congruence|].
    assert (LL : length tgs' = nEls) by (rewrite X1, length_upd; lia). split; auto. split.
    { intros e He. rewrite X1, at_upd by lia. destruct (Nat.eqb_spec e el) as [->|]; lia. }
    split; auto. split.
    { intros K. destruct (I4 K) as (J1 & J2). split; auto. intros ad (f & Hf & Ef). eapply J2; eauto. }
    intros K. specialize (I3 K). rewrite X1. pose proof (list_sum_upd tgs el (at_ tgs' el) ltac:(lia)). unfold at_ in *. lia.
Qed.

Lemma normSweep_ok tgs all : length tgs = nEls ->
  exists tgs' it, normSweep nElFas nEls elFaEl (tgs, all) = Ok (tgs', it, all + it) /\ length tgs' = nEls /\ (forall e, e < nEls -> at_ tgs' e <= at_ tgs e) /\ keeps tgs tgs' /\
    (it = 0 -> tgs' = tgs /\ forall el ad, el < nEls -> adj nElFas elFaEl el ad -> at_ tgs el <= at_ tgs ad + 1) /\ (0 < it -> list_sum tgs' < list_sum tgs).
Proof.
  intros LT. unfold normSweep. cbn [fst snd].
  destruct (for_ok (fun el s => exists tgs' it, s = (tgs', it, all + it) /\ length tgs' = nEls /\ (forall e, e < nEls -> at_ tgs' e <= at_ tgs e) /\ keeps tgs tgs' /\
    (it = 0 -> tgs' = tgs /\ forall e ad, e < el -> adj nElFas elFaEl e ad -> at_ tgs e <= at_ tgs ad + 1) /\ (0 < it -> list_sum tgs' < list_sum tgs) /\ list_sum tgs' <= list_sum tgs) 0 nEls
    (fun el s => let '(tgs, it, all) := s in tgEl <- rd tgs el ;; for_ 0 nElFas (normFace nElFas elFaEl el tgEl) (tgs, it, all)) (tgs, 0, all)) as (s' & E & tgs' & it & -> & I1 & I2 & I3 & I4 & I5 & _); [lia| | |].
  - exists tgs, 0. rewrite Nat.add_0_r. repeat split; auto; try lia. intros g _ H; exact H.
  - intros el s Hel (tgs1 & it & -> & I1 & I2 & I3 & I4 & I5 & I6). rewrite (rd_ok _ _ 0) by lia. cbn [bind].
    destruct (normFaces_ok el tgs1 it (all + it) ltac:(lia) I1) as (tgs2 & k & E & J1 & J2 & J3 & J4 & J5). unfold at_ in E at 1. rewrite E.
    eexists. split; [reflexivity|]. exists tgs2, (it + k). split; [now rewrite Nat.add_assoc|]. split; auto. split; [intros e He; specialize (I2 e He); specialize (J2 e He); lia|]. split.
    { intros g G1 G2. apply J3; auto. }
    split.
    { intros K. destruct (I4 ltac:(lia)) as (-> & A). destruct (J4 ltac:(lia)) as (-> & B). split; auto. intros e ad He Ha. destruct (Nat.eq_dec e el) as [->|N]; [auto|apply (A e); auto; lia]. }
    destruct (Nat.eq_dec k 0) as [K|K].
    + destruct (J4 K) as (-> & _). split; [intros; apply I5; lia|lia].
    + specialize (J5 ltac:(lia)). split; [intros; lia|lia].
  - exists tgs', it. split; [exact E|]. auto.
Qed.

Lemma normLoop_ok : forall fuel tgs all, length tgs = nEls -> list_sum tgs < fuel ->
  exists tgs' n, normLoop fuel nElFas nEls elFaEl (tgs, all) = Ok (tgs', n) /\ length tgs' = nEls /\ (forall e, e < nEls -> at_ tgs' e <= at_ tgs e) /\ keeps tgs tgs' /\
    forall el ad, el < nEls -> adj nElFas elFaEl el ad -> at_ tgs' el <= at_ tgs' ad + 1.
Proof.
  induction fuel as [|fuel IH]; intros tgs all LT HS; [lia|]. cbn [normLoop]. destruct (normSweep_ok tgs all LT) as (tgs1 & it & E & I1 & I2 & I3 & I4 & I5). rewrite E. cbn [bind].
  destruct (Nat.eqb_spec it 0) as [K|K].
  - destruct (I4 K) as (-> & A). exists tgs, (all + it). auto.
  - destruct (IH tgs1 (all + it) I1) as (tgs2 & n & E2 & J1 & J2 & J3 & J4); [specialize (I5 ltac:(lia)); lia|]. exists tgs2, n. split; auto. split; auto. split; [intros e He; specialize (I2 e He); specialize (J2 e He); lia|].
    split; auto. intros g G1 G2. apply J3; auto.
Qed.
End Norm.

(** normalizeElTgs terminates (with any sufficiently large bound for the number of sweeps) and returns the largest admissible
    assignment. *)
Theorem C25_normalize nElFas nEls elFaEl tgs : mesh_ok nElFas nEls elFaEl -> length tgs = nEls ->
  exists fuel0, forall fuel, fuel0 <= fuel -> exists out n, normalizeElTgs fuel nElFas nEls elFaEl tgs = Ok (out, n) /\ length out = nEls /\
    admissible nElFas nEls elFaEl (at_ tgs) (at_ out) /\
    forall g, admissible nElFas nEls elFaEl (at_ tgs) g -> forall el, el < nEls -> g el <= at_ out el.
Proof.
  intros (M1 & M2 & M3) LT. exists (S (list_sum tgs)). intros fuel HF. unfold normalizeElTgs. destruct (normLoop_ok nElFas nEls elFaEl M1 M2 fuel tgs 0 LT ltac:(lia)) as (out & n & E & I1 & I2 & I3 & I4).
  exists out, n. split; auto. split; auto. split; [split; auto|].
  - intros el ad Hel Ha. split; [auto|]. apply I4; [exact (M2 _ _ Hel Ha)|exact (M3 _ _ Ha)].
  - intros g (G1 & G2). apply I3; auto. intros el ad Hel Ha. exact (proj1 (G2 _ _ Hel Ha)).
Qed.
Print Assumptions C25_normalize.

(** The result does not depend on the order of the elements: it is the same for a renumbered mesh. *)
Theorem C25_renumbering nElFas nEls elFaEl elFaEl' tgs tgs' (p q : nat -> nat) fuel fuel' out out' n n' :
  mesh_ok nElFas nEls elFaEl -> mesh_ok nElFas nEls elFaEl' -> length tgs = nEls -> length tgs' = nEls ->
  (forall el, el < nEls -> p el < nEls /\ q el < nEls /\ q (p el) = el /\ p (q el) = el) ->
  (forall el ad, el < nEls -> ad < nEls -> adj nElFas elFaEl el ad <-> adj nElFas elFaEl' (p el) (p ad)) ->
  (forall el, el < nEls -> at_ tgs' (p el) = at_ tgs el) ->
  normalizeElTgs fuel nElFas nEls elFaEl tgs = Ok (out, n) -> normalizeElTgs fuel' nElFas nEls elFaEl' tgs' = Ok (out', n') ->
  forall el, el < nEls -> at_ out' (p el) = at_ out el.
Proof.
  intros M M' L L' P A T E E'.
  assert (MONO : forall nF nE eF f f' s r, normLoop f nF nE eF s = Ok r -> f <= f' -> normLoop f' nF nE eF s = Ok r).
  { intros nF nE eF. induction f as [|f IH]; intros [|f'] s r H Hf; cbn [normLoop] in *; try discriminate; try lia.
    destruct (normSweep nF nE eF s) as [((t & i) & a)|]; cbn [bind] in *; auto. destruct (i =? 0); auto. apply IH; auto. lia. }
  assert (D : forall eF t f o k, mesh_ok nElFas nEls eF -> length t = nEls -> normalizeElTgs f nElFas nEls eF t = Ok (o, k) ->
     admissible nElFas nEls eF (at_ t) (at_ o) /\ forall g, admissible nElFas nEls eF (at_ t) g -> forall el, el < nEls -> g el <= at_ o el).
  { intros eF t f o k Me Le Ee. destruct (C25_normalize nElFas nEls eF t Me Le) as (f0 & X). destruct (X (f0 + f) ltac:(lia)) as (o' & k' & E1 & _ & X1 & X2).
    unfold normalizeElTgs in *. rewrite (MONO _ _ _ f (f0 + f) _ _ Ee ltac:(lia)) in E1. inversion E1; subst; auto. }
  destruct (D _ _ _ _ _ M L E) as ((B1 & B2) & B3). destruct (D _ _ _ _ _ M' L' E') as ((B1' & B2') & B3').
  destruct M as (_ & M2 & _). destruct M' as (_ & M2' & _).
  intros el Hel. destruct (P el Hel) as (P1 & P2 & P3 & P4). apply Nat.le_antisymm.
  - apply (B3 (fun e => at_ out' (p e))); auto. split.
    + intros e He. destruct (P e He) as (Q1 & _). specialize (B1' _ Q1). rewrite (T e He) in B1'. auto.
    + intros e ad He Ha. pose proof (M2 _ _ He Ha). apply B2'; [now apply P|]. now apply A.
  - rewrite <- P3 at 1. apply (B3' (fun e => at_ out (q e))); auto. split.
    + intros e He. destruct (P e He) as (_ & Q2 & _ & Q4). specialize (B1 _ Q2). rewrite <- (T _ Q2), Q4 in B1. auto.
    + intros e ad He Ha. pose proof (M2' _ _ He Ha) as Hd. destruct (P e He) as (_ & Q2 & _ & Q4). destruct (P ad Hd) as (_ & R2 & _ & R4). apply B2; auto. apply A; auto. now rewrite Q4, R4.
Qed.
Print Assumptions C25_renumbering.

(** The documented return value ("number of normalized elements", Groups.h:79) is not returned: a chain of three triangles with
    the groups 0, 5, 0 has one normalized element, but 1 lowering per face is counted. *)
Theorem C25_count_refuted : exists nElFas nEls elFaEl tgs fuel out n, mesh_ok nElFas nEls elFaEl /\ length tgs = nEls /\
  normalizeElTgs fuel nElFas nEls elFaEl tgs = Ok (out, n) /\
  n <> length (filter (fun el => negb (at_ tgs el =? at_ out el)) (seq 0 nEls)).
Proof.
  exists 2, 3, [Some 1; None; Some 0; Some 2; Some 1; None], [0; 5; 0], 5. eexists _, _. split; [|split; [reflexivity|split; [vm_compute; reflexivity|vm_compute; discriminate]]].
  split; [reflexivity|].
  assert (ADJ : forall el ad, adj 2 [Some 1; None; Some 0; Some 2; Some 1; None] el ad -> (el = 0 /\ ad = 1) \/ (el = 1 /\ ad = 0) \/ (el = 1 /\ ad = 2) \/ (el = 2 /\ ad = 1)).
  { intros el ad ([|[|f]] & Hf & E); try lia; destruct el as [|[|[|el]]]; cbn in E; try discriminate; inversion E; auto; destruct el; cbn in E; discriminate. }
  split.
  - intros el ad _ H. apply ADJ in H. lia.
  - intros el ad H. apply ADJ in H as [(-> & ->)|[(-> & ->)|[(-> & ->)|(-> & ->)]]]; [exists 0|exists 0|exists 0|exists 1]; split; auto.
Qed.
Print Assumptions C25_count_refuted.

Example C25_ex : exists out n, normalizeElTgs 20 2 5 [None; Some 1; Some 0; Some 2; Some 1; Some 3; Some 2; Some 4; Some 3; None] [0; 9; 9; 9; 3] = Ok (out, n) /\ out = [0; 1; 2; 3; 3].
Proof. eexists _, _. split; [vm_compute; reflexivity|reflexivity]. Qed.

(** * C26 *)

(** Start of group [k]: the fundamental time step times the first [k] rates. *)
Definition start (rates : list Q) (funDt : Q) (k : nat) : Q := fold_left Qmult (firstn k rates) funDt.

(** End of group [k] of [length rates + 1] groups. *)
Definition before_end (rates : list Q) (funDt ts : Q) (k : nat) : Prop := k < length rates -> (ts < start rates funDt (k + 1))%Q.

(** Time step [ts] lies in the interval of group [k]. *)
Definition inGroup (rates : list Q) (funDt ts : Q) (k : nat) : Prop := k <= length rates /\ (start rates funDt k <= ts)%Q /\ before_end rates funDt ts k.

Definition rates_ok (rates : list Q) : Prop := forall r, In r rates -> (1 < r /\ r <= 2)%Q.

Lemma Qle_bool_false a b : Qle_bool a b = false <-> (b < a)%Q.
Proof.
  split; intros H.
  - apply Qnot_le_lt. intros X. apply Qle_bool_iff in X. congruence.
  - destruct (Qle_bool a b) eqn:E; auto. apply Qle_bool_iff in E. apply Qle_not_lt in E. contradiction.
Qed.

Lemma start_S rates funDt k r : nth_error rates k = Some r -> start rates funDt (S k) = (start rates funDt k * r)%Q.
Proof. intros E. unfold start. now rewrite (firstn_S_snoc _ _ _ E), fold_left_app. Qed.

Lemma start_mono rates funDt : rates_ok rates -> (0 < funDt)%Q -> forall k, k <= length rates -> (0 < start rates funDt k)%Q /\ forall j, j <= k -> (start rates funDt j <= start rates funDt k)%Q.
Proof.
  intros R F. induction k as [|k IH]; intros H.
  - split; [exact F|]. intros j Hj. assert (j = 0) as -> by lia. apply Qle_refl.
  - destruct (IH ltac:(lia)) as (P & M). destruct (nth_error rates k) as [r|] eqn:E; [|apply nth_error_None in E; lia]. rewrite (start_S _ _ _ _ E).
    pose proof (R r (nth_error_In _ _ E)) as (R1 & R2). split; [nra|]. intros j Hj. destruct (Nat.eq_dec j (S k)) as [->|N]; [rewrite (start_S _ _ _ _ E); apply Qle_refl|]. specialize (M j ltac:(lia)). nra.
Qed.

Lemma inGroup_unique rates funDt ts k k' : rates_ok rates -> (0 < funDt)%Q -> inGroup rates funDt ts k -> inGroup rates funDt ts k' -> k = k'.
Proof.
  intros R F (A1 & A2 & A3) (B1 & B2 & B3). destruct (lt_eq_lt_dec k k') as [[L|L]|L]; auto; exfalso.
  - specialize (A3 ltac:(lia)). destruct (start_mono rates funDt R F k' B1) as (_ & M). specialize (M (k + 1) ltac:(lia)). lra.
  - specialize (B3 ltac:(lia)). destruct (start_mono rates funDt R F k A1) as (_ & M). specialize (M (k' + 1) ltac:(lia)). lra.
Qed.

(** the array of intervals *)
Definition intervals_of (rates : list Q) (funDt : Q) (int : list (option Q)) : Prop :=
  length int = length rates + 2 /\ (forall k, k <= length rates -> nth_error int k = Some (Some (start rates funDt k))) /\ nth_error int (length rates + 1) = Some None.

Lemma tsIntervals_ok rates funDt garbage : length garbage = length rates + 2 -> exists int, tsIntervals rates funDt garbage = Ok int /\ intervals_of rates funDt int.
Proof.
  intros L. unfold tsIntervals. rewrite wr_ok by lia. cbn [bind]. rewrite wr_ok by (rewrite length_upd; lia). cbn [bind].
  match goal with |- exists int, for_ 0 ?n ?f ?s = Ok int /\ _ =>
    destruct (for_ok (fun ra t => length t = length rates + 2 /\ (forall k, k <= ra -> nth_error t k = Some (Some (start rates funDt k))) /\ nth_error t (length rates + 1) = Some None) 0 n f s) as (int & E & I); [lia| | |] end.
  - rewrite !length_upd. split; auto. split.
    + intros k Hk. assert (k = 0) as -> by lia. rewrite nth_error_upd_ne by lia. now rewrite nth_error_upd_eq by lia.
    + now rewrite nth_error_upd_eq by (rewrite length_upd; lia).
  - intros ra t Hra (I1 & I2 & I3). rewrite (rd_some _ _ _ (I2 ra ltac:(lia))). cbn [bind]. destruct (nth_error rates ra) as [r|] eqn:Er; [|apply nth_error_None in Er; lia]. rewrite (rd_some _ _ _ Er). cbn [bind]. rewrite wr_ok by lia.
    eexists. split; [reflexivity|]. rewrite length_upd. split; auto. split.
    + intros k Hk. destruct (Nat.eq_dec k (ra + 1)) as [->|N]; [rewrite nth_error_upd_eq by lia; rewrite Nat.add_1_r, (start_S _ _ _ _ Er); auto|]. rewrite nth_error_upd_ne by lia. apply I2. lia.
    + rewrite nth_error_upd_ne by lia. auto.
  - exists int. split; [exact E|]. destruct I as (I1 & I2 & I3). split; auto.
Qed.

Lemma findGroup_ok rates funDt int ts : intervals_of rates funDt int -> (funDt <= ts)%Q -> forall n tg, tg + n = length rates + 1 -> 0 < n -> (start rates funDt tg <= ts)%Q ->
  exists k, findGroup int ts n tg = Ok (Some k) /\ inGroup rates funDt ts k.
Proof.
  intros (L & I & Z) F. induction n as [|n IH]; intros tg H Hn S; [lia|]. cbn [findGroup]. destruct (Nat.eq_dec tg (length rates)) as [->|N].
  - rewrite (rd_some _ _ _ Z). cbn [bind ltEnd]. exists (length rates). split; auto. split; [lia|]. split; auto. intros X. lia.
  - rewrite (rd_some _ _ _ (I (tg + 1) ltac:(lia))). cbn [bind ltEnd]. destruct (Qle_bool (start rates funDt (tg + 1)) ts) eqn:B; cbn [negb].
    + apply Qle_bool_iff in B. apply IH; try lia. now rewrite Nat.add_1_r in B.
    + apply Qle_bool_false in B. exists tg. split; auto. split; [lia|]. split; auto. now intros _.
Qed.

(** setElTg assigns every element to the group whose interval contains its time step, whatever the output held before. *)
Theorem C26_assignment rates funDt garbage tsCfl nEls elTg0 : rates_ok rates -> (0 < funDt)%Q ->
  length garbage = length rates + 2 -> length tsCfl = nEls -> length elTg0 = nEls -> (forall ts, In ts tsCfl -> (funDt <= ts)%Q) ->
  exists int elTg, tsIntervals rates funDt garbage = Ok int /\ setElTg nEls (length rates + 1) int tsCfl elTg0 = Ok elTg /\ length elTg = nEls /\
    forall el ts, nth_error tsCfl el = Some ts -> inGroup rates funDt ts (at_ elTg el).
Proof.
  intros R F LG LC LE HT. destruct (tsIntervals_ok rates funDt garbage LG) as (int & EI & I). unfold setElTg.
  match goal with |- context [for_ 0 nEls ?f] => idtac | _ => idtac end.
  destruct (for_ok (fun el e => length e = nEls /\ forall k ts, k < el -> nth_error tsCfl k = Some ts -> inGroup rates funDt ts (at_ e k)) 0 nEls
    (fun el elTg => ts <- rd tsCfl el ;; o <- findGroup int ts (length rates + 1) 0 ;; match o with None => Ok elTg | Some tg => wr elTg el tg end) elTg0) as (elTg & E & I1 & I2); [lia| | |].
  - split; auto. intros; lia.
  - intros el e Hel (I1 & I2). destruct (nth_error tsCfl el) as [ts|] eqn:Et; [|apply nth_error_None in Et; lia]. rewrite (rd_some _ _ _ Et). cbn [bind]. pose proof (HT ts (nth_error_In _ _ Et)) as FT.
    destruct (findGroup_ok rates funDt int ts I FT (length rates + 1) 0 eq_refl ltac:(lia) FT) as (k & Ek & K). rewrite Ek. cbn [bind]. rewrite wr_ok by lia. eexists. split; [reflexivity|]. rewrite length_upd. split; auto.
    intros j ts' Hj Ej. rewrite at_upd by lia. destruct (Nat.eqb_spec j el) as [->|N]; [congruence|apply I2; auto; lia].
  - exists int, elTg. split; auto. split; auto. split; auto. intros el ts Et. apply I2; auto. rewrite <- LC. apply nth_error_Some. congruence.
Qed.
Print Assumptions C26_assignment.

Lemma nGroupEls_ok first nEls nGroups elTg cnt : first + nEls <= length elTg -> length cnt = nGroups -> (forall el, at_ elTg el < nGroups) ->
  exists out, nGroupEls first nEls nGroups elTg cnt = Ok out /\ length out = nGroups /\
    forall tg, tg < nGroups -> at_ out tg = length (filter (fun el => at_ elTg el =? tg) (seq first nEls)).
Proof.
  intros LE LC HG. unfold nGroupEls.
  destruct (for_ok (fun k c => length c = nGroups /\ forall j, j < k -> at_ c j = 0) 0 nGroups (fun tg cnt => wr cnt tg 0) cnt) as (c0 & E0 & I1 & I2); [lia|split; [auto|intros; lia]| |].
  - intros k c Hk (I1 & I2). rewrite wr_ok by lia. eexists. split; [reflexivity|]. rewrite length_upd. split; auto. intros j Hj. rewrite at_upd by lia. destruct (Nat.eqb_spec j k); auto. apply I2. lia.
  - rewrite E0. cbn [bind].
    destruct (for_ok (fun k c => length c = nGroups /\ forall tg, tg < nGroups -> at_ c tg = length (filter (fun el => at_ elTg el =? tg) (seq first (k - first)))) first (first + nEls)
       (fun el cnt => tg <- rd elTg el ;; c <- rd cnt tg ;; wr cnt tg (c + 1)) c0) as (c1 & E1 & J1 & J2); [lia| | |].
    + split; auto. intros tg Htg. rewrite Nat.sub_diag. cbn. auto.
    + intros k c Hk (J1 & J2). rewrite (rd_ok elTg k 0) by lia. cbn [bind]. fold (at_ elTg k). pose proof (HG k). rewrite (rd_ok c _ 0) by lia. cbn [bind]. rewrite wr_ok by lia. eexists. split; [reflexivity|].
      rewrite length_upd. split; auto. intros tg Htg. rewrite at_upd by lia. replace (S k - first) with (S (k - first)) by lia. rewrite seq_snoc, filter_app, app_length. cbn [filter].
      replace (first + (k - first)) with k by lia. destruct (Nat.eqb_spec tg (at_ elTg k)) as [->|N].
      * rewrite Nat.eqb_refl. fold (at_ c (at_ elTg k)). rewrite J2 by auto. reflexivity.
      * replace (at_ elTg k =? tg) with false by (symmetry; apply Nat.eqb_neq; auto). rewrite J2 by auto. cbn. lia.
    + rewrite E1. exists c1. split; auto. split; auto. intros tg Htg. rewrite (J2 tg Htg). now replace (first + nEls - first) with nEls by lia.
Qed.

(** load: sum over the elements *)
Definition load (f : nat -> Q) (n : nat) : Q := fold_left (fun s el => (s + 1 / f el)%Q) (seq 0 n) 0%Q.

Lemma load_le f g n : (forall el, el < n -> (0 < g el /\ g el <= f el)%Q) -> (load f n <= load g n)%Q.
Proof.
  intros H. unfold load. induction n as [|n IH]; [apply Qle_refl|]. rewrite seq_snoc, !fold_left_app. cbn [fold_left Nat.add]. apply Qplus_le_compat; [apply IH; intros; apply H; lia|].
  destruct (H n ltac:(lia)) as (P & L). unfold Qdiv. rewrite !Qmult_1_l. apply Qle_shift_inv_l; [exact P|]. rewrite Qmult_comm. apply Qle_shift_div_r; lra.
Qed.

Lemma getLoads_ok rates funDt int nEls ts elTg : intervals_of rates funDt int -> length ts = nEls -> length elTg = nEls -> (forall el, el < nEls -> at_ elTg el <= length rates) ->
  getLoads nEls ts int elTg = Ok (inject_Z (Z.of_nat nEls), load (fun el => start rates funDt (at_ elTg el)) nEls, load (fun el => nth el ts 0%Q) nEls).
Proof.
  intros (_ & I & _) LT LE HB. unfold getLoads.
  match goal with |- context [for_ 0 nEls ?f ?s] =>
    destruct (for_ok (fun k st => st = (load (fun el => start rates funDt (at_ elTg el)) k, load (fun el => nth el ts 0%Q) k)) 0 nEls f s) as (s' & E & ->); [lia|reflexivity| |] end.
  - intros k st Hk ->. rewrite (rd_ok elTg k 0) by lia. cbn [bind]. fold (at_ elTg k). rewrite (rd_some _ _ _ (I (at_ elTg k) (HB k ltac:(lia)))). cbn [bind]. rewrite (rd_ok ts k 0%Q) by lia. cbn [bind fst snd].
    eexists. split; [reflexivity|]. unfold load. now rewrite seq_snoc, !fold_left_app.
  - rewrite E. reflexivity.
Qed.

Lemma mkTimeGroups_unfold rates funDt : rates_ok rates -> (0 < funDt /\ funDt <= 1)%Q ->
  for_ 0 (length rates) (fun ra _ => r <- rd rates ra ;; _ <- check (negb (Qle_bool r 1)) ;; check (Qle_bool r 2)) tt = Ok tt /\
  check (negb (Qle_bool funDt 0)) = Ok tt /\ check (Qle_bool funDt 1) = Ok tt.
Proof.
  intros R (F0 & F1). split; [|split].
  - destruct (for_ok (fun _ _ => True) 0 (length rates) (fun ra _ => r <- rd rates ra ;; _ <- check (negb (Qle_bool r 1)) ;; check (Qle_bool r 2)) tt) as (s' & E & _); auto; [lia| |destruct s'; exact E].
    intros ra s Hra _. destruct (nth_error rates ra) as [r|] eqn:Er; [|apply nth_error_None in Er; lia]. rewrite (rd_some _ _ _ Er). cbn [bind]. destruct (R r (nth_error_In _ _ Er)) as (R1 & R2).
    apply Qle_bool_false in R1. apply Qle_bool_iff in R2. rewrite R1, R2. cbn. eauto.
  - apply Qle_bool_false in F0. now rewrite F0.
  - apply Qle_bool_iff in F1. now rewrite F1.
Qed.

(** The constructor: intervals, assignment, normalization, number of elements of the groups and loads.  An element's group never
    starts beyond the element's own (relative) time step [t]; the assignment is the largest one which does so and has differences
    of at most one between adjacent elements.  Normalization costs; a step per element costs least. *)
Theorem C26_time_groups nElFas nEls elFaEl rates funDt ts gI gT gN :
  mesh_ok nElFas nEls elFaEl -> rates_ok rates -> (0 < funDt /\ funDt <= 1)%Q -> length ts = nEls -> (forall t, In t ts -> (1 <= t)%Q) ->
  length gI = length rates + 2 -> length gT = nEls -> length gN = length rates + 1 ->
  exists fuel0, forall fuel, fuel0 <= fuel -> exists g, mkTimeGroups fuel nElFas nEls elFaEl rates funDt ts gI gT gN = Ok g /\
    intervals_of rates funDt (gIntervals g) /\ length (gElTg g) = nEls /\
    (forall el t, nth_error ts el = Some t -> (start rates funDt (at_ (gElTg g) el) <= t)%Q /\ exists k, inGroup rates funDt t k /\ at_ (gElTg g) el <= k) /\
    (forall el ad, el < nEls -> adj nElFas elFaEl el ad -> at_ (gElTg g) el <= at_ (gElTg g) ad + 1 /\ at_ (gElTg g) ad <= at_ (gElTg g) el + 1) /\
    (forall a, (forall el t, nth_error ts el = Some t -> a el <= length rates /\ (start rates funDt (a el) <= t)%Q) ->
       (forall el ad, el < nEls -> adj nElFas elFaEl el ad -> a el <= a ad + 1 /\ a ad <= a el + 1) -> forall el, el < nEls -> a el <= at_ (gElTg g) el) /\
    (forall tg, tg <= length rates -> at_ (gNEls g) tg = length (filter (fun el => at_ (gElTg g) el =? tg) (seq 0 nEls))) /\
    exists gts before after per, gLoads g = [gts; before; after; per] /\ gts = inject_Z (Z.of_nat nEls) /\ (per <= before)%Q /\ (before <= after)%Q /\
      after = load (fun el => start rates funDt (at_ (gElTg g) el)) nEls /\ per = load (fun el => nth el ts 0%Q) nEls.
Proof.
  intros M R F LT HT LI LG LN.
  assert (HT' : forall t, In t ts -> (funDt <= t)%Q) by (intros t H; specialize (HT t H); lra).
  destruct (C26_assignment rates funDt gI ts nEls gT R (proj1 F) LI LT LG HT') as (int & elTg & EI & EE & LE & A).
  destruct (tsIntervals_ok rates funDt gI LI) as (int' & EI' & I). assert (int' = int) as -> by congruence.
  destruct (C25_normalize nElFas nEls elFaEl elTg M LE) as (f0 & N). exists f0. intros fuel Hf. destruct (N fuel Hf) as (out & n & En & Lo & (D1 & D2) & G).
  assert (AE : forall el, el < nEls -> inGroup rates funDt (nth el ts 0%Q) (at_ elTg el)) by (intros el H; apply A; apply nth_error_nth'; lia).
  assert (B0 : forall el, el < nEls -> at_ elTg el <= length rates) by (intros el H; apply (AE el H)).
  assert (B1 : forall el, el < nEls -> at_ out el <= length rates) by (intros el H; specialize (B0 el H); specialize (D1 el H); lia).
  assert (B2 : forall el, at_ out el < length rates + 1).
  { intros el. destruct (lt_dec el nEls) as [H|H]; [specialize (B1 el H); lia|]. unfold at_. rewrite nth_overflow by lia. lia. }
  destruct (nGroupEls_ok 0 nEls (length rates + 1) out gN ltac:(lia) LN B2) as (cnt & Ec & Lc & C).
  destruct (mkTimeGroups_unfold rates funDt R F) as (U1 & U2 & U3).
  unfold mkTimeGroups. rewrite U1. cbn [bind]. rewrite U2. cbn [bind]. rewrite U3. cbn [bind]. rewrite EI. cbn [bind]. rewrite EE. cbn [bind].
  rewrite (getLoads_ok rates funDt int nEls ts elTg I LT LE B0). cbn [bind]. rewrite En. cbn [bind]. rewrite Ec. cbn [bind]. rewrite (getLoads_ok rates funDt int nEls ts out I LT Lo B1). cbn [bind].
  eexists. split; [reflexivity|]. cbn [gIntervals gElTg gNEls gLoads]. split; auto. split; auto. split; [|split; [|split; [|split]]].
  - intros el t Et. assert (Hel : el < nEls) by (rewrite <- LT; apply nth_error_Some; congruence). pose proof (A el t Et) as (K1 & K2 & K3). split; [|exists (at_ elTg el); split; [apply A; auto|auto]].
    destruct (start_mono rates funDt R (proj1 F) (at_ elTg el) K1) as (_ & SM). specialize (SM (at_ out el) (D1 el Hel)). lra.
  - exact D2.
  - intros a H1 H2 el Hel. apply G; auto. split; auto. intros e He. destruct (H1 e (nth e ts 0%Q)) as (X1 & X2); [apply nth_error_nth'; lia|]. destruct (AE e He) as (K1 & K2 & K3).
    destruct (le_lt_dec (a e) (at_ elTg e)) as [Z|Z]; auto. exfalso. specialize (K3 ltac:(lia)). destruct (start_mono rates funDt R (proj1 F) (a e) X1) as (_ & SM). specialize (SM (at_ elTg e + 1) ltac:(lia)). lra.
  - intros tg Htg. apply C. lia.
  - eexists _, _, _, _. split; [reflexivity|]. split; [reflexivity|]. split; [|split; [|split; reflexivity]].
    + apply load_le. intros el Hel. destruct (AE el Hel) as (K1 & K2 & K3). split; auto. apply (start_mono rates funDt R (proj1 F) _ K1).
    + apply load_le. intros el Hel. destruct (start_mono rates funDt R (proj1 F) (at_ elTg el) (B0 el Hel)) as (_ & SM). destruct (start_mono rates funDt R (proj1 F) (at_ out el) (B1 el Hel)) as (P & _). split; auto.
Qed.
Print Assumptions C26_time_groups.

(** Other rates and fundamental time steps are rejected. *)
Theorem C26_rejects fuel nElFas nEls elFaEl rates funDt ts gI gT gN :
  (exists r, In r rates /\ ~ (1 < r /\ r <= 2)%Q) \/ ~ (0 < funDt /\ funDt <= 1)%Q -> mkTimeGroups fuel nElFas nEls elFaEl rates funDt ts gI gT gN = Er Echeck.
Proof.
  intros H. unfold mkTimeGroups.
  assert (L : forall n i, i + n = length rates -> let r := for_n n i (fun ra (_ : unit) => r <- rd rates ra ;; _ <- check (negb (Qle_bool r 1)) ;; check (Qle_bool r 2)) tt in
     r = Er Echeck \/ (r = Ok tt /\ forall k r, i <= k -> nth_error rates k = Some r -> (1 < r /\ r <= 2)%Q)).
  { induction n as [|n IH]; intros i Hi; cbn [for_n].
    - right. split; auto. intros k r Hk E. assert (k < length rates) by (apply nth_error_Some; congruence). lia.
    - destruct (nth_error rates i) as [r|] eqn:Er; [|apply nth_error_None in Er; lia]. rewrite (rd_some _ _ _ Er). cbn [bind].
      destruct (Qle_bool r 1) eqn:Q1; [left; reflexivity|]. destruct (Qle_bool r 2) eqn:Q2; [|left; reflexivity]. cbn [negb check bind].
      destruct (IH (S i) ltac:(lia)) as [X|(X & Y)]; [left; exact X|right]. split; [exact X|]. intros k r' Hk E. destruct (Nat.eq_dec k i) as [->|N]; [|apply (Y k); auto; lia].
      assert (r' = r) as -> by congruence. apply Qle_bool_false in Q1. apply Qle_bool_iff in Q2. auto. }
  unfold for_ at 1. rewrite Nat.sub_0_r. destruct (L (length rates) 0 eq_refl) as [X|(X & Y)]; rewrite X; [reflexivity|]. cbn [bind].
  destruct H as [(r & I & N)|N]; [exfalso; apply In_nth_error in I as (k & Ek); apply N; apply (Y k); auto; lia|].
  destruct (Qle_bool funDt 0) eqn:Q1; [reflexivity|]. destruct (Qle_bool funDt 1) eqn:Q2; [|reflexivity]. exfalso. apply N. apply Qle_bool_false in Q1. apply Qle_bool_iff in Q2. auto.
Qed.
Print Assumptions C26_rejects.

(** Mean wave speed: of the element, or of its vertices. *)
Definition speedOf (nElVes : nat) (elVe : list nat) (velModEl : bool) (speed : nat -> Q) (el : nat) : Q :=
  if velModEl then speed el
  else (fold_right Qplus 0 (map (fun ve => speed (nth (el * nElVes + ve) elVe 0%nat)) (seq 0 nElVes)) / inject_Z (Z.of_nat nElVes))%Q.

Lemma meanSpeed_ok nElVes nEls elVe velModEl speed el : length elVe = nEls * nElVes -> el < nEls ->
  exists c, meanSpeed nElVes elVe velModEl speed el = Ok c /\ (c == speedOf nElVes elVe velModEl speed el)%Q.
Proof.
  intros L Hel. unfold meanSpeed, speedOf. destruct velModEl; [eexists; split; [reflexivity|reflexivity]|].
  match goal with |- context [for_ 0 nElVes ?f ?s] =>
    destruct (for_ok (fun k st => (st == fold_right Qplus 0 (map (fun ve => speed (nth (el * nElVes + ve) elVe 0%nat)) (seq 0 k)))%Q) 0 nElVes f s) as (s' & E & I); [lia|reflexivity| |] end.
  - intros k st Hk Ek. rewrite (rd_ok elVe _ 0) by nia. cbn [bind]. eexists. split; [reflexivity|]. rewrite seq_snoc, map_app, fold_right_app. cbn [map fold_right Nat.add].
    rewrite Ek. clear. generalize (map (fun ve => speed (nth (el * nElVes + ve) elVe 0)) (seq 0 k)). induction l as [|a l IH]; cbn [fold_right]; [ring|]. rewrite <- IH. ring.
  - rewrite E. cbn [bind]. eexists. split; [reflexivity|]. now rewrite I.
Qed.

(** CFL time steps: for positive wave speeds and diameters the absolute time step of an element is its diameter over its mean
    wave speed; the relative ones are at least 1, which is attained. *)
Theorem C26_cfl nElVes nEls elVe inDia velModEl speed ts0 : 0 < nEls -> length elVe = nEls * nElVes -> length inDia = nEls -> length ts0 = nEls ->
  (forall el, el < nEls -> (0 < speedOf nElVes elVe velModEl speed el)%Q) -> (forall d, In d inDia -> (0 < d)%Q) ->
  exists m ts, setTimeSteps nElVes nEls elVe inDia velModEl speed ts0 = Ok (m, ts) /\ (0 < m)%Q /\ length ts = nEls /\
    (forall el, el < nEls -> (nth el ts 0 * m == nth el inDia 0 / speedOf nElVes elVe velModEl speed el)%Q) /\
    (forall t, In t ts -> (1 <= t)%Q) /\ exists el, el < nEls /\ (nth el ts 0 == 1)%Q.
Proof.
  intros HN LV LD LT HS HD. unfold setTimeSteps. set (abs := fun el => (nth el inDia 0 / speedOf nElVes elVe velModEl speed el)%Q).
  assert (AP : forall el, el < nEls -> (0 < abs el)%Q).
  { intros el Hel. unfold abs, Qdiv. apply Qmult_lt_0_compat; [apply HD, nth_In; lia|]. apply Qinv_lt_0_compat. now apply HS. }
  match goal with |- context [for_ 0 nEls ?f (None, ts0)] =>
    destruct (for_ok (fun k (st : option Q * list Q) => length (snd st) = nEls /\ (forall el, el < k -> (nth el (snd st) 0 == abs el)%Q) /\
      match fst st with None => k = 0 | Some m => 0 < k /\ (forall el, el < k -> (m <= abs el)%Q) /\ exists el, el < k /\ (m == abs el)%Q end) 0 nEls f (None, ts0)) as ((om & ts) & E & I1 & I2 & I3); [lia| | |] end.
  - cbn [fst snd]. split; auto. split; [intros; lia|auto].
  - intros k (om & ts) Hk (I1 & I2 & I3). cbn [fst snd] in *. destruct (meanSpeed_ok nElVes nEls elVe velModEl speed k LV ltac:(lia)) as (c & Ec & C). rewrite Ec. cbn [bind].
    replace (Qle_bool c 0) with false by (symmetry; apply Qle_bool_false; rewrite C; apply HS; lia). cbn [negb check bind]. rewrite (rd_ok inDia k 0%Q) by lia. cbn [bind]. rewrite wr_ok by lia. cbn [bind].
    assert (DC : (nth k inDia 0 / c == abs k)%Q) by (unfold abs; now rewrite C).
    eexists. split; [reflexivity|]. cbn [fst snd]. rewrite length_upd. split; auto. split.
    + intros el Hel. destruct (Nat.eq_dec el k) as [->|N]; [rewrite nth_upd_eq by lia; exact DC|rewrite nth_upd_ne by lia; apply I2; lia].
    + split; [lia|]. destruct om as [m|].
      * destruct I3 as (P & I3 & el0 & H0 & Q0). split.
        -- intros el Hel. destruct (Nat.eq_dec el k) as [->|N]; [rewrite <- DC; apply Q.le_min_r|]. eapply Qle_trans; [apply Q.le_min_l|]. apply I3. lia.
        -- destruct (Q.min_dec m (nth k inDia 0 / c)%Q) as [X|X]; [exists el0; split; [lia|rewrite X; exact Q0]|exists k; split; [lia|rewrite X; exact DC]].
      * split; [|exists k; split; [lia|exact DC]]. intros el Hel. assert (el = k) as -> by lia. rewrite DC. apply Qle_refl.
  - rewrite E. cbn [bind]. destruct om as [m|]; cbn [fst snd] in *; [|lia]. destruct I3 as (_ & MB & el0 & H0 & M0). assert (MP : (0 < m)%Q) by (rewrite M0; apply AP; auto).
    replace (Qle_bool m 0) with false by (symmetry; now apply Qle_bool_false). cbn [negb check bind].
    match goal with |- context [for_ 0 nEls ?f ts] =>
      destruct (for_ok (fun k t => length t = nEls /\ (forall el, k <= el -> nth el t 0%Q = nth el ts 0%Q) /\ forall el, el < k -> (nth el t 0 == abs el / m)%Q) 0 nEls f ts) as (t' & E' & J1 & J2 & J3); [lia| | |] end.
    + split; auto. split; auto. intros; lia.
    + intros k t Hk (J1 & J2 & J3). rewrite (rd_ok t k 0%Q) by lia. cbn [bind]. rewrite wr_ok by lia. eexists. split; [reflexivity|]. rewrite length_upd. split; auto. split.
      * intros el Hel. rewrite nth_upd_ne by lia. apply J2. lia.
      * intros el Hel. destruct (Nat.eq_dec el k) as [->|N]; [|rewrite nth_upd_ne by lia; apply J3; lia]. rewrite nth_upd_eq by lia. rewrite J2 by lia. rewrite (I2 k) by lia. field. intros X. rewrite X in MP. discriminate MP.
    + rewrite E'. cbn [bind]. assert (MN : ~ (m == 0)%Q) by (intros X; rewrite X in MP; discriminate MP). exists m, t'. split; auto. split; auto. split; auto. split; [|split].
      * intros el Hel. rewrite J3 by auto. unfold abs. rewrite Qmult_comm. now apply Qmult_div_r.
      * intros t Ht. apply (In_nth _ _ 0%Q) in Ht as (el & Hel & <-). rewrite J3 by lia. apply Qle_shift_div_l; auto. rewrite Qmult_1_l. apply MB. lia.
      * exists el0. split; auto. rewrite J3 by auto. rewrite <- M0. field. auto.
Qed.
Print Assumptions C26_cfl.

(** Example: rates 2 and 3/2 with the fundamental time step 9/10: the groups start at 9/10, 9/5 and 27/10. *)
Example C26_ex :
  match setTimeSteps 2 4 [0; 1; 1; 2; 2; 3; 3; 4] [1; 4; 10; 12]%Q false (fun v => inject_Z (Z.of_nat (v + 1))) [7; 7; 7; 7]%Q with
  | Ok (m, ts) =>
    match mkTimeGroups 10 2 4 [None; Some 1; Some 0; Some 2; Some 1; Some 3; Some 2; None] [2; 3#2]%Q (9#10) ts [None; None; None; None] [5; 5; 5; 5] [6; 6; 6] with
    | Ok g => map (option_map Qred) (gIntervals g) = [Some (9#10); Some (9#5); Some (27#10); None]%Q /\ gElTg g = [0; 1; 2; 2] /\ gNEls g = [1; 1; 2]
    | Er _ => False
    end /\ (m == 2#3)%Q
  | Er _ => False
  end.
Proof. vm_compute. repeat split. Qed.
