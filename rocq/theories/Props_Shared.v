(** C10-C13: work packages of a region, sparse offsets of packages, hand-out of work, NUMA-aware initialization. *)
From Coq Require Import Sorted Permutation QArith.
Close Scope Q_scope.
From Verif Require Import Util Sparse SchedModel SchedProofs Shared SharedProofs.

(* ------------------------------------------------------------------ *)
(** ** Specification *)

(** [pk w] = (first, size) of worker w: the packages are disjoint, in the order of the workers, and cover
    [first, first+size) without gap or overlap. *)
Definition partition (first size nw : nat) (pk : nat -> nat * nat) : Prop :=
  (forall x, first <= x < first + size -> exists! w, w < nw /\ fst (pk w) <= x < fst (pk w) + snd (pk w)) /\
  (forall w x, w < nw -> fst (pk w) <= x < fst (pk w) + snd (pk w) -> first <= x < first + size) /\
  fst (pk 0) = first /\
  (forall w, S w < nw -> fst (pk (S w)) = fst (pk w) + snd (pk w)) /\
  fst (pk (nw - 1)) + snd (pk (nw - 1)) = first + size.

(** package (first, size, first sparse ids) which the load balancing holds for worker [w] and region [id] *)
Definition package (s : shared) (id w : nat) : res (nat * nat * list nat) :=
  p <- getWrkRgn (rgns s) id ;; lbGetWrkTd (lbs s) p w.

(** status of the package of worker [w] and region [id] *)
Definition statusOf (s : shared) (id w : nat) : res status :=
  p <- getWrkRgn (rgns s) id ;; r <- rd (rgns s) p ;; rd (wStat r) w.

(** [s] is the state after the history [os] of calls: at least one worker, new timers count as "no time measured",
    characteristics given for all entities of a region with sparse types, one list of measured times per region, and
    pairwise different ids of the regions. *)
Record history (O : fops) (nw : nat) (os : list (op O)) (s : shared) : Prop := {
  h_workers : 0 < nw;
  h_timers : flt O (fold_left (fmin O) (repeat (f0 O) nw) (fbig O)) (zeroTime O) = true;
  h_valid : valid O nw 0 os;
  h_run : run O nw os shared0 = Ok s;
  h_ids : NoDup (map aId (regsOf O os))
}.

(* ------------------------------------------------------------------ *)
(** ** Lookup of registered regions *)
Section Lookup.
Variables (O : fops) (nw : nat) (os : list (op O)) (s : shared).
Hypothesis H : history O nw os s.

Lemma hist_inv : SInv nw (regsOf O os) s.
Proof. destruct H. exact (run_inv O nw os h_workers0 h_timers0 [] shared0 s (SInv0 nw) h_valid0 h_run0). Qed.

Lemma find_pos (es : list ent) e : NoDup (map aId (map eA es)) -> forall p, nth_error es p = Some e ->
  getWrkRgn (map eRgn es) (aId (eA e)) = Ok p.
Proof.
  induction es as [|x es IH]; intros ND p Hp; [destruct p; discriminate|]. cbn [map getWrkRgn].
  replace (wId (eRgn x)) with (aId (eA x)) by reflexivity. cbn [map] in ND. inversion ND as [|? ? ND1 ND2]. subst.
  destruct p as [|p]; cbn in Hp.
  - injection Hp as ->. now rewrite Nat.eqb_refl.
  - destruct (Nat.eqb_spec (aId (eA x)) (aId (eA e))) as [E|E].
    + exfalso. apply ND1. rewrite E. apply in_map, in_map. eapply nth_error_In; eauto.
    + rewrite (IH ND2 p Hp). reflexivity.
Qed.

Lemma ids_of (es : list ent) regs : NoDup (map aId regs) -> StronglySorted before es ->
  (forall e, In e es -> nth_error regs (eI e) = Some (eA e)) -> NoDup (map aId (map eA es)).
Proof.
  intros ND SS A. induction SS as [|x es SS IH F]; cbn; constructor.
  - intros Hin. apply in_map_iff in Hin as (a & Ea & Ha). apply in_map_iff in Ha as (y & <- & Hy).
    pose proof (A x (or_introl eq_refl)) as A1. pose proof (A y (or_intror Hy)) as A2.
    rewrite Forall_forall in F. specialize (F y Hy).
    assert (EI : eI x = eI y).
    { apply (proj1 (NoDup_nth_error (map aId regs)) ND).
      - rewrite map_length. apply nth_error_Some. congruence.
      - rewrite !nth_error_map, A1, A2. cbn. congruence. }
    rewrite EI in A1. assert (eA x = eA y) by congruence. unfold before in F. rewrite H0 in F. lia.
  - apply IH. intros; apply A; now right.
Qed.

Lemma lookup : exists es : list ent, rgns s = map eRgn es /\ lbs s = map eLb es /\ StronglySorted before es /\
    (forall e, In e es -> nth_error (regsOf O os) (eI e) = Some (eA e) /\ RgnOk nw (eA e) (eLb e) /\ length (eStat e) = nw) /\
    (forall i a, nth_error (regsOf O os) i = Some a -> exists p e, nth_error es p = Some e /\ eI e = i /\ eA e = a) /\
    (forall p e, nth_error es p = Some e -> getWrkRgn (rgns s) (aId (eA e)) = Ok p).
Proof.
  destruct hist_inv as (es & E1 & E2 & SS & A & B). exists es. split; [|split; [|split; [|split; [|split]]]]; auto.
  - intros i a Hi. destruct (B i a Hi) as (e & He & <-). apply In_nth_error in He as (p & Hp). exists p, e. repeat split; auto.
    destruct (A e) as (A1 & _); [eapply nth_error_In; eauto|]. congruence.
  - intros p e Hp. rewrite E1. apply find_pos; auto. apply (ids_of es (regsOf O os)); auto; [apply H|]. intros x Hx. apply A; auto.
Qed.
End Lookup.

Lemma contig_partition first size nw (szs : list nat) : 0 < nw -> length szs = nw -> list_sum szs = size ->
  partition first size nw (fun w => (first + list_sum (firstn w szs), nth w szs 0)).
Proof.
  intros Hw L Hs. set (P := fun w => list_sum (firstn w szs)).
  assert (PS : forall w, w < nw -> P (w + 1) = P w + nth w szs 0).
  { intros w Hi. unfold P. rewrite Nat.add_1_r. apply firstn_sum_S. apply nth_error_nth'. lia. }
  assert (PN : P nw = size). { unfold P. rewrite <- L, firstn_all. exact Hs. }
  assert (MONO : forall a b, a <= b -> b <= nw -> P a <= P b).
  { intros a b Hab. induction Hab as [|b Hab IH]; intros Hb; auto. specialize (PS b ltac:(lia)).
    rewrite Nat.add_1_r in PS. lia. }
  split; [|split; [|split; [|split]]]; cbn [fst snd]; fold (P 0).
  - intros x Hx. assert (EX : exists w, w < nw /\ P w <= x - first < P (w + 1)).
    { assert (G : forall k, k <= nw -> x - first < P k -> exists w, w < k /\ P w <= x - first < P (w + 1)).
      { induction k as [|k IH]; intros Hk Hl; [cbn in Hl; lia|].
        destruct (lt_dec (x - first) (P k)) as [G|G].
        - destruct (IH ltac:(lia) G) as (w & ? & ?). exists w. split; [lia|auto].
        - exists k. split; [lia|]. rewrite Nat.add_1_r. lia. }
      destruct (G nw) as (w & ? & ?); [lia|lia|]. exists w. auto. }
    destruct EX as (w & Hi & Hb). exists w. rewrite PS in Hb by auto. split.
    + fold (P w). split; [auto|lia].
    + intros w' (Hi' & Hb'). fold (P w') in Hb'. pose proof (PS w' Hi') as PS'. pose proof (PS w Hi) as PS1.
      destruct (lt_eq_lt_dec w w') as [[G|G]|G]; [|exact G|].
      * pose proof (MONO (w + 1) w' ltac:(lia) ltac:(lia)). lia.
      * pose proof (MONO (w' + 1) w ltac:(lia) ltac:(lia)). lia.
  - intros w x Hi Hx. fold (P w) in Hx. pose proof (PS w Hi). pose proof (MONO (w + 1) nw ltac:(lia) ltac:(lia)). lia.
  - cbn. lia.
  - intros w Hi. fold (P w) (P (S w)). pose proof (PS w ltac:(lia)) as PS1. rewrite Nat.add_1_r in PS1. lia.
  - fold (P (nw - 1)). pose proof (PS (nw - 1) ltac:(lia)) as PS1. replace (nw - 1 + 1) with nw in PS1 by lia. lia.
Qed.

(* ------------------------------------------------------------------ *)
(** ** C10 *)

(** After any history of registrations, status changes and balancing steps with any measured times and any (rounding)
    arithmetic on times, the packages of every registered region partition the region. *)
Theorem C10_packages_partition O nw os s i a :
  history O nw os s -> nth_error (regsOf O os) i = Some a ->
  exists pk, (forall w, w < nw -> exists sp, package s (aId a) w = Ok (fst (pk w), snd (pk w), sp)) /\
    partition (aFirst a) (aSize a) nw pk.
Proof.
  intros H Hi. destruct (lookup O nw os s H) as (es & E1 & E2 & SS & A & B & C).
  destruct (B i a Hi) as (p & e & Hp & _ & <-). destruct (A e (nth_error_In _ _ Hp)) as (_ & RK & _).
  destruct RK as (R1 & R2 & (K1 & K2 & K3 & K4) & (S1 & S2 & S3 & S4) & S5).
  exists (fun w => (aFirst (eA e) + list_sum (firstn w (pSize (eLb e))), nth w (pSize (eLb e)) 0)). split.
  - intros w Hw. unfold package. rewrite (C p e Hp). cbn [bind]. unfold lbGetWrkTd.
    rewrite (rd_some _ p (eLb e)) by (now rewrite E2, nth_error_map, Hp). cbn [bind].
    rewrite (rd_some _ _ _ (K4 w Hw)). cbn [bind]. rewrite (rd_some (pSize (eLb e)) w (nth w (pSize (eLb e)) 0)) by (apply nth_error_nth'; lia).
    cbn [bind]. rewrite (rd_some _ _ _ (S5 w _ (K4 w Hw))). cbn [bind]. rewrite R1. eexists. reflexivity.
  - apply contig_partition; auto; [apply H|congruence].
Qed.
Print Assumptions C10_packages_partition.

(** No registration and no balancing step aborts, accesses an array out of bounds or loops forever. *)
Theorem C10_balancing_succeeds O nw os s :
  history O nw os s ->
  (forall a, regValid a -> exists s', regWrkRgn O nw a s = Ok s') /\
  (forall el, length (regsOf O os) <= length el -> (forall e, In e el -> length e = nw) -> exists s', balance O nw el s = Ok s').
Proof.
  intros H. pose proof (hist_inv O nw os s H) as I. split.
  - intros a Ha. destruct (reg_ok O nw (regsOf O os) s a) as (s' & E & _); auto; try apply H. eauto.
  - intros el H1 H2. destruct (bal_ok O nw (regsOf O os) s el) as (s' & E & _); auto; try apply H; [|eauto].
    destruct (lookup O nw os s H) as (es & E1 & E2 & SS & A & B & C). rewrite E1, map_length.
    assert (ND : NoDup (map aId (map eA es))).
    { apply (ids_of es (regsOf O os)); auto; [apply H|]. intros e He. apply A; auto. }
    rewrite <- (map_length eA), <- (map_length aId).
    apply Nat.le_trans with (length (map aId (regsOf O os))); [|now rewrite map_length].
    apply NoDup_incl_length; auto. intros x Hx. apply in_map_iff in Hx as (b & <- & Hb). apply in_map_iff in Hb as (e & <- & He).
    apply in_map. destruct (A e He) as (A1 & _). eapply nth_error_In; eauto.
Qed.
Print Assumptions C10_balancing_succeeds.

(** Without measured times (a new region), the sizes of two packages differ by at most one. *)
Theorem C10_even_start O nw os s a s' :
  history O nw (os ++ [OReg O a]) s' -> run O nw os shared0 = Ok s ->
  forall w w' f n sp f' n' sp', package s' (aId a) w = Ok (f, n, sp) -> package s' (aId a) w' = Ok (f', n', sp') -> n <= S n'.
Proof.
  intros H Hs w w' f n sp f' n' sp' P1 P2.
  assert (RA : run O nw (os ++ [OReg O a]) shared0 = regWrkRgn O nw a s).
  { clear - Hs. revert Hs. generalize shared0 as s0. induction os as [|o os IH]; intros s0 Hs.
    - cbn in *. injection Hs as <-. destruct (regWrkRgn O nw a s0); reflexivity.
    - cbn [app run] in *. apply bind_inv in Hs as (s1 & E1 & E2). rewrite E1. cbn [bind]. now apply IH. }
  pose proof (h_run _ _ _ _ H) as E. rewrite RA in E. clear RA.
  assert (HV : regValid a).
  { pose proof (h_valid _ _ _ _ H) as V. clear - V. revert V. generalize 0 as m. induction os as [|o os IH]; intros m V.
    - cbn in V. apply V.
    - destruct V as (_ & V). eapply IH; eauto. }
  unfold regWrkRgn in E.
  destruct (newRgn_ok O nw a) as (r & En & _ & v & Ev); auto; try apply H. rewrite En in E. cbn [bind] in E.
  apply bind_inv in E as (u & Ec & E). injection E as <-.
  set (p := regPos (rgns s) (aPrio a)) in *.
  assert (ND : NoDup (map aId (regsOf O (os ++ [OReg O a])))) by apply H.
  unfold regsOf in ND. rewrite flat_map_app in ND. fold (regsOf O os) in ND. cbn [flat_map app] in ND.
  rewrite map_app in ND. cbn [map] in ND.
  assert (I0 : SInv nw (regsOf O os) s).
  { apply (run_inv O nw os (h_workers _ _ _ _ H) (h_timers _ _ _ _ H) [] shared0 s (SInv0 nw)); auto.
    pose proof (h_valid _ _ _ _ H) as V. clear - V. cbn [length]. revert V. generalize 0 as m. induction os as [|o os IH]; intros m V; [exact Logic.I|].
    destruct V as (V1 & V2). split; [exact V1|]. apply IH. exact V2. }
  assert (GP : forall l q, q <= length l -> (forall x, In x l -> wId x <> aId a) -> forall x, wId x = aId a ->
    getWrkRgn (insert l q x) (aId a) = Ok q).
  { clear. induction l as [|y l IH]; intros q Hq Hl x Hx.
    - assert (q = 0) as -> by (cbn in Hq; lia). cbn. rewrite Hx, Nat.eqb_refl. reflexivity.
    - destruct q as [|q].
      + cbn. rewrite Hx, Nat.eqb_refl. reflexivity.
      + unfold insert. cbn [firstn skipn app getWrkRgn].
        destruct (Nat.eqb_spec (wId y) (aId a)) as [E|E]; [exfalso; apply (Hl y); cbn; auto|].
        fold (insert l q x). rewrite IH; auto; [cbn in Hq; lia|]. intros z Hz. apply Hl. now right. }
  assert (PL : p <= length (lbs s)). { unfold check in Ec. destruct (p <=? length (lbs s)) eqn:G; [lia|discriminate]. }
  assert (PR : p <= length (rgns s)). { pose proof (SInv_len nw _ _ I0). lia. }
  assert (NI : forall x, In x (rgns s) -> wId x <> aId a).
  { destruct I0 as (es & E1 & E2 & SS & A & B). rewrite E1. intros x Hx. apply in_map_iff in Hx as (e & <- & He).
    destruct (A e He) as (A1 & _). cbn. intros Eq. apply NoDup_remove_2 in ND. apply ND. rewrite app_nil_r, <- Eq.
    apply in_map. eapply nth_error_In; eauto. }
  unfold package in P1, P2. cbn [rgns lbs] in P1, P2. rewrite GP in P1, P2 by (auto; reflexivity). cbn [bind] in P1, P2.
  unfold lbGetWrkTd in P1, P2.
  assert (NE : nth_error (insert (lbs s) p r) p = Some r).
  { unfold insert. rewrite nth_error_app2; rewrite firstn_length_le by lia; [now rewrite Nat.sub_diag|lia]. }
  rewrite (rd_some _ _ _ NE) in P1, P2. cbn [bind] in P1, P2.
  apply bind_inv in P1 as (x1 & _ & P1). apply bind_inv in P1 as (x2 & G1 & P1). apply bind_inv in P1 as (x3 & _ & P1). injection P1 as <- <- <-.
  apply bind_inv in P2 as (y1 & _ & P2). apply bind_inv in P2 as (y2 & G2 & P2). apply bind_inv in P2 as (y3 & _ & P2). injection P2 as <- <- <-.
  apply rd_inv in G1. apply rd_inv in G2. apply nth_error_In in G1. apply nth_error_In in G2.
  apply Ev in G1. apply Ev in G2. lia.
Qed.
Print Assumptions C10_even_start.

(* ------------------------------------------------------------------ *)
(** ** C11 *)

(** The sparse id of a package and a sparse type is the number of entities of this type in front of the package: exactly the
    sparse id of the first entity of the type at or behind the start of the package. *)
Theorem C11_package_sparse_start O nw os s i a w f n sps ty t :
  history O nw os s -> nth_error (regsOf O os) i = Some a -> package s (aId a) w = Ok (f, n, sps) ->
  nth_error (aTypes a) ty = Some t ->
  exists D, lists_ids (carries (aChars a) t) f D /\ nth_error sps ty = Some (length D).
Proof.
  intros H Hi Hpk Ht. destruct (lookup O nw os s H) as (es & E1 & E2 & SS & A & B & C).
  destruct (B i a Hi) as (p & e & Hp & _ & <-). destruct (A e (nth_error_In _ _ Hp)) as (_ & RK & _).
  destruct RK as (R1 & R2 & PK & _ & S5).
  unfold package in Hpk. rewrite (C p e Hp) in Hpk. cbn [bind] in Hpk. unfold lbGetWrkTd in Hpk.
  rewrite (rd_some _ p (eLb e)) in Hpk by (now rewrite E2, nth_error_map, Hp). cbn [bind] in Hpk.
  apply bind_inv in Hpk as (x1 & G1 & Hpk). apply bind_inv in Hpk as (x2 & G2 & Hpk). apply bind_inv in Hpk as (x3 & G3 & Hpk).
  injection Hpk as <- <- <-. apply rd_inv in G1, G3. rewrite (S5 w x1 G1) in G3. injection G3 as <-.
  exists (ids (sp t (aChars (eA e))) x1). split.
  - apply ids_lists. intros; apply sp_carries.
  - rewrite nth_error_map, Ht. reflexivity.
Qed.
Print Assumptions C11_package_sparse_start.

(* ------------------------------------------------------------------ *)
(** ** C12 *)

Lemma hand_out (es : list ent) lb w k :
  (forall p e, nth_error es p = Some e -> exists st, nth_error (eStat e) w = Some st) ->
  (forall p e, nth_error es p = Some e -> exists x, lbGetWrkTd lb (k + p) w = Ok x) ->
  match getWrkTdFrom (map eRgn es) lb k w with
  | Ok (Some o) => exists p e, nth_error es p = Some e /\ oId o = aId (eA e) /\ oTg o = aTg (eA e) /\ oStep o = aStep (eA e) /\
      nth_error (eStat e) w = Some RDY /\ lbGetWrkTd lb (k + p) w = Ok (oFirst o, oSize o, oFirstSp o) /\
      forall q e', q < p -> nth_error es q = Some e' -> nth_error (eStat e') w <> Some RDY
  | Ok None => forall p e, nth_error es p = Some e -> nth_error (eStat e) w <> Some RDY
  | Er _ => False
  end.
Proof.
  revert k. induction es as [|e es IH]; intros k H1 H2; cbn [map getWrkTdFrom].
  - intros [|p] e He; discriminate.
  - destruct (H1 0 e eq_refl) as (st & Est). replace (wStat (eRgn e)) with (eStat e) by reflexivity.
    rewrite (rd_some _ _ _ Est). cbn [bind]. destruct (status_eqb st RDY) eqn:ER.
    + assert (st = RDY) as -> by (destruct st; auto; discriminate).
      destruct (H2 0 e eq_refl) as (((f & n) & sps) & EL). rewrite Nat.add_0_r in EL. rewrite EL. cbn [bind].
      exists 0, e. rewrite Nat.add_0_r. cbn. repeat split; auto. intros; lia.
    + specialize (IH (S k) (fun p e' Hp => H1 (S p) e' Hp)).
      assert (H2' : forall p e', nth_error es p = Some e' -> exists x, lbGetWrkTd lb (S k + p) w = Ok x).
      { intros p e' Hp. destruct (H2 (S p) e' Hp) as (x & Hx). exists x. rewrite <- Hx. f_equal. lia. }
      specialize (IH H2'). assert (NR : nth_error (eStat e) w <> Some RDY).
      { rewrite Est. intros G. injection G as ->. discriminate. }
      destruct (getWrkTdFrom _ _ _ _) as [[o|]|]; [| |exact IH].
      * destruct IH as (p & e' & I1 & I2 & I3 & I4 & I5 & I6 & I7). exists (S p), e'. repeat split; auto.
        -- rewrite <- I6. f_equal. lia.
        -- intros [|q] e2 Hq He2; [cbn in He2; injection He2 as <-; exact NR|]. apply (I7 q); auto; lia.
      * intros [|p] e' He'; [cbn in He'; injection He' as <-; exact NR|]. apply (IH p); auto.
Qed.

(** A worker asking for work gets the package of a ready region of highest priority, the first registered one among those of
    the same priority; the package handed out is the one of that region and of this worker. *)
Theorem C12_best_ready O nw os s w o :
  history O nw os s -> w < nw -> getWrkTd s w = Ok (Some o) ->
  exists i a, nth_error (regsOf O os) i = Some a /\ oId o = aId a /\ oTg o = aTg a /\ oStep o = aStep a /\
    statusOf s (aId a) w = Ok RDY /\ package s (aId a) w = Ok (oFirst o, oSize o, oFirstSp o) /\
    forall j b, nth_error (regsOf O os) j = Some b -> statusOf s (aId b) w = Ok RDY ->
      (aPrio b < aPrio a)%Z \/ (aPrio b = aPrio a /\ i <= j).
Proof.
  intros H Hw E. destruct (lookup O nw os s H) as (es & E1 & E2 & SS & A & B & C).
  assert (LB : forall p e, nth_error es p = Some e -> exists x, lbGetWrkTd (lbs s) (0 + p) w = Ok x).
  { intros p e Hp. destruct (A e (nth_error_In _ _ Hp)) as (_ & (R1 & R2 & (K1 & K2 & K3 & K4) & _ & S5) & _).
    change (0 + p) with p. unfold lbGetWrkTd. rewrite (rd_some _ p (eLb e)) by (now rewrite E2, nth_error_map, Hp). cbn [bind].
    rewrite (rd_some _ _ _ (K4 w Hw)). cbn [bind]. rewrite (rd_some (pSize (eLb e)) w (nth w (pSize (eLb e)) 0)) by (apply nth_error_nth'; lia).
    cbn [bind]. rewrite (rd_some _ _ _ (S5 w _ (K4 w Hw))). cbn [bind]. eauto. }
  assert (ST : forall p e, nth_error es p = Some e -> exists st, nth_error (eStat e) w = Some st).
  { intros p e Hp. destruct (A e (nth_error_In _ _ Hp)) as (_ & _ & L).
    destruct (nth_error (eStat e) w) eqn:G; [eauto|]. apply nth_error_None in G. lia. }
  pose proof (hand_out es (lbs s) w 0 ST LB) as HO. unfold getWrkTd in E. rewrite E1 in E. rewrite E in HO.
  destruct HO as (p & e & I1 & I2 & I3 & I4 & I5 & I6 & I7).
  assert (STO : forall q e', nth_error es q = Some e' -> statusOf s (aId (eA e')) w = rd (eStat e') w).
  { intros q e' Hq. unfold statusOf. rewrite (C q e' Hq). cbn [bind].
    rewrite (rd_some _ q (eRgn e')) by (now rewrite E1, nth_error_map, Hq). reflexivity. }
  exists (eI e), (eA e). split; [apply A; eapply nth_error_In; eauto|]. repeat (split; [assumption|]). split; [|split].
  - rewrite (STO p e I1). now apply rd_some.
  - unfold package. rewrite (C p e I1). exact I6.
  - intros j b Hj Hb. destruct (B j b Hj) as (q & e' & Hq & <- & <-). rewrite (STO q e' Hq) in Hb. apply rd_inv in Hb.
    assert (p <= q). { destruct (lt_dec q p) as [G|G]; [|lia]. exfalso. exact (I7 q e' G Hq Hb). }
    destruct (Nat.eq_dec p q) as [->|Ne].
    { assert (e' = e) as -> by congruence. right. auto. }
    assert (SO : before e e').
    { assert (P : p < q) by lia. clear - SS I1 Hq P. revert p q I1 Hq P. induction SS as [|x es SS IH F]; intros p q Hp Hq L; [destruct p; discriminate|].
      destruct q as [|q]; [lia|]. destruct p as [|p]; cbn in *.
      - injection Hp as <-. rewrite Forall_forall in F. apply F. eapply nth_error_In; eauto.
      - apply (IH p q); auto; lia. }
    unfold before in SO. lia.
Qed.
Print Assumptions C12_best_ready.

(** The search never fails, and finds nothing exactly if no region is ready for this worker. *)
Theorem C12_none_iff_none_ready O nw os s w :
  history O nw os s -> w < nw ->
  (exists r, getWrkTd s w = Ok r) /\
  (getWrkTd s w = Ok None <-> forall i a, nth_error (regsOf O os) i = Some a -> statusOf s (aId a) w <> Ok RDY).
Proof.
  intros H Hw. destruct (lookup O nw os s H) as (es & E1 & E2 & SS & A & B & C).
  assert (LB : forall p e, nth_error es p = Some e -> exists x, lbGetWrkTd (lbs s) (0 + p) w = Ok x).
  { intros p e Hp. destruct (A e (nth_error_In _ _ Hp)) as (_ & (R1 & R2 & (K1 & K2 & K3 & K4) & _ & S5) & _).
    change (0 + p) with p. unfold lbGetWrkTd. rewrite (rd_some _ p (eLb e)) by (now rewrite E2, nth_error_map, Hp). cbn [bind].
    rewrite (rd_some _ _ _ (K4 w Hw)). cbn [bind]. rewrite (rd_some (pSize (eLb e)) w (nth w (pSize (eLb e)) 0)) by (apply nth_error_nth'; lia).
    cbn [bind]. rewrite (rd_some _ _ _ (S5 w _ (K4 w Hw))). cbn [bind]. eauto. }
  assert (ST : forall p e, nth_error es p = Some e -> exists st, nth_error (eStat e) w = Some st).
  { intros p e Hp. destruct (A e (nth_error_In _ _ Hp)) as (_ & _ & L).
    destruct (nth_error (eStat e) w) eqn:G; [eauto|]. apply nth_error_None in G. lia. }
  assert (STO : forall q e', nth_error es q = Some e' -> statusOf s (aId (eA e')) w = rd (eStat e') w).
  { intros q e' Hq. unfold statusOf. rewrite (C q e' Hq). cbn [bind].
    rewrite (rd_some _ q (eRgn e')) by (now rewrite E1, nth_error_map, Hq). reflexivity. }
  pose proof (hand_out es (lbs s) w 0 ST LB) as HO. unfold getWrkTd. rewrite E1.
  destruct (getWrkTdFrom _ _ _ _) as [[o|]|]; [| |contradiction].
  - split; [eauto|]. split; [discriminate|]. intros HN. exfalso.
    destruct HO as (p & e & I1 & I2 & I3 & I4 & I5 & I6 & I7).
    apply (HN (eI e) (eA e)); [apply A; eapply nth_error_In; eauto|]. rewrite (STO p e I1). now apply rd_some.
  - split; [eauto|]. split; [|auto]. intros _ i a Hi Hb. destruct (B i a Hi) as (p & e & Hp & _ & <-).
    rewrite (STO p e Hp) in Hb. apply rd_inv in Hb. exact (HO p e Hp Hb).
Qed.
Print Assumptions C12_none_iff_none_ready.

(* ------------------------------------------------------------------ *)
(** ** C13 *)

Lemma numaRange_eq n nw w : 0 < nw -> numaRange n nw w =
  (n / nw * w + Nat.min (n mod nw) w, n / nw + (if w <? n mod nw then 1 else 0)).
Proof.
  intros Hw. unfold numaRange. cbv zeta. f_equal.
  - destruct (Nat.ltb_spec 0 (n mod nw)); lia.
  - destruct (w <? n mod nw); lia.
Qed.

(** The ranges of the workers partition the entries and their sizes differ by at most one. *)
Theorem C13_ranges_partition n nw : 0 < nw ->
  partition 0 n nw (numaRange n nw) /\
  forall w w', w < nw -> w' < nw -> snd (numaRange n nw w) <= S (snd (numaRange n nw w')).
Proof.
  intros Hw. set (q := n / nw). set (r := n mod nw).
  assert (Hn : n = q * nw + r). { unfold q, r. rewrite (Nat.div_mod_eq n nw) at 1. lia. }
  assert (Hr : r < nw) by (unfold r; apply Nat.mod_upper_bound; lia).
  assert (EQ : forall w, numaRange n nw w = (q * w + Nat.min r w, q + (if w <? r then 1 else 0))) by (intros; now apply numaRange_eq).
  clearbody q r.
  set (szs := map (fun w => snd (numaRange n nw w)) (seq 0 nw)).
  assert (SUM : forall w, w <= nw -> list_sum (firstn w szs) = q * w + Nat.min r w).
  { induction w as [|w IH]; intros Hl; [cbn; lia|].
    assert (Ex : nth_error szs w = Some (snd (numaRange n nw w))).
    { unfold szs. rewrite nth_error_map, nth_error_seq by lia. reflexivity. }
    rewrite (firstn_sum_S _ _ _ Ex), IH by lia. rewrite EQ. cbn [snd]. destruct (Nat.ltb_spec w r); nia. }
  assert (LS : length szs = nw) by (unfold szs; now rewrite map_length, seq_length).
  assert (TOT : list_sum szs = n). { rewrite <- (firstn_all szs), LS, SUM by lia. nia. }
  split.
  - pose proof (contig_partition 0 n nw szs Hw LS TOT) as P.
    assert (PE : forall w, w < nw -> (0 + list_sum (firstn w szs), nth w szs 0) = numaRange n nw w).
    { intros w Hl. rewrite SUM by lia. rewrite (nth_error_nth szs w 0 (x := snd (numaRange n nw w))).
      - rewrite EQ. reflexivity.
      - unfold szs. rewrite nth_error_map, nth_error_seq by lia. reflexivity. }
    destruct P as (P1 & P2 & P3 & P4 & P5). split; [|split; [|split; [|split]]].
    + intros x Hx. destruct (P1 x Hx) as (w & (W1 & W2) & W3). rewrite PE in W2 by auto. exists w. split; [auto|].
      intros w' (W1' & W2'). apply W3. rewrite PE by auto. auto.
    + intros w x Hl Hx. apply (P2 w x Hl). rewrite PE by auto. exact Hx.
    + rewrite <- (PE 0 Hw). reflexivity.
    + intros w Hl. pose proof (P4 w Hl) as G. rewrite !PE in G by lia. exact G.
    + pose proof P5 as G. rewrite PE in G by lia. exact G.
  - intros w w' _ _. rewrite !EQ. cbn [snd]. destruct (w <? r), (w' <? r); lia.
Qed.
Print Assumptions C13_ranges_partition.

Lemma numaInit1_ok {A} (z : A) n nw w off arr : let '(a, k) := numaRange n nw w in off + a + k <= length arr ->
  exists arr', numaInit1 z n nw w off arr = Ok arr' /\ length arr' = length arr /\
    forall i, nth_error arr' i = if (off + a <=? i) && (i <? off + a + k) then Some z else nth_error arr i.
Proof.
  unfold numaInit1. destruct (numaRange n nw w) as (a & k). intros Hl.
  loop (fun j (arr' : list A) => length arr' = length arr /\
    forall i, nth_error arr' i = if (off + a <=? i) && (i <? off + a + j) then Some z else nth_error arr i) as arr' E (L & H).
  - lia.
  - split; auto. intros i. destruct (Nat.leb_spec (off + a) i), (Nat.ltb_spec i (off + a + 0)); cbn [andb]; auto; lia.
  - intros j arr' Hj (L & H). rewrite wr_ok by lia. eexists. split; [reflexivity|]. rewrite length_upd. split; auto.
    intros i. destruct (Nat.eq_dec i (off + a + j)) as [->|Ne].
    + rewrite nth_error_upd_eq by lia. replace (_ && _) with true; auto. symmetry. apply andb_true_iff. split; [apply Nat.leb_le|apply Nat.ltb_lt]; lia.
    + rewrite nth_error_upd_ne by lia. rewrite H.
      destruct (Nat.leb_spec (off + a) i); cbn [andb]; auto.
      destruct (Nat.ltb_spec i (off + a + j)), (Nat.ltb_spec i (off + a + S j)); auto; lia.
  - exists arr'. auto.
Qed.

Lemma numaInit_ok {A} (z : A) n nw off : 0 < nw -> forall ws arr, (forall w, In w ws -> w < nw) -> off + n <= length arr ->
  exists arr', numaInit z n nw off ws arr = Ok arr' /\ length arr' = length arr /\
    forall i, nth_error arr' i =
      if existsb (fun w => (off + fst (numaRange n nw w) <=? i) && (i <? off + fst (numaRange n nw w) + snd (numaRange n nw w))) ws
      then Some z else nth_error arr i.
Proof.
  intros Hw. induction ws as [|w ws IH]; intros arr HW HL; cbn [numaInit existsb].
  - exists arr. auto.
  - destruct (C13_ranges_partition n nw Hw) as ((P1 & P2 & P3 & P4 & P5) & _).
    pose proof (numaInit1_ok z n nw w off arr) as N1. destruct (numaRange n nw w) as (a & k) eqn:ER.
    assert (LE : off + a + k <= length arr).
    { destruct k as [|k].
      - assert (a <= n); [|lia]. assert (a = n / nw * w + Nat.min (n mod nw) w) by (rewrite numaRange_eq in ER by auto; congruence).
        assert (w < nw) by (apply HW; cbn; auto). pose proof (Nat.div_mod_eq n nw) as DM. pose proof (Nat.mod_upper_bound n nw ltac:(lia)). 
        set (q := n / nw) in *. set (r := n mod nw) in *. clearbody q r. clear - H H0 DM H1. subst a. rewrite DM.
        assert (q * w <= nw * q) by nia. lia.
      - pose proof (P2 w (a + k) (HW w (or_introl eq_refl))) as G. rewrite ER in G. cbn [fst snd] in G. lia. }
    destruct (N1 LE) as (arr1 & E1 & L1 & H1). rewrite E1. cbn [bind].
    destruct (IH arr1) as (arr2 & E2 & L2 & H2); [intros; apply HW; now right|lia|].
    exists arr2. split; auto. split; [lia|]. intros i. rewrite H2, H1. cbn [fst snd].
    destruct (existsb _ ws); rewrite ?orb_true_r, ?orb_false_r; reflexivity.
Qed.

(** The workers together set exactly the entries [off, off+n) to zero, whatever order they run in. *)
Theorem C13_all_zeroed {A} (zero : A) n nw off ws arr :
  0 < nw -> Permutation ws (seq 0 nw) -> off + n <= length arr ->
  exists arr', numaInit zero n nw off ws arr = Ok arr' /\ length arr' = length arr /\
    (forall i, off <= i < off + n -> nth_error arr' i = Some zero) /\
    (forall i, i < off \/ off + n <= i -> nth_error arr' i = nth_error arr i).
Proof.
  intros Hw HP HL. destruct (numaInit_ok zero n nw off Hw ws arr) as (arr' & E & L & H); auto.
  { intros w Hi. apply (Permutation_in _ HP) in Hi. apply in_seq in Hi. lia. }
  exists arr'. split; auto. split; auto. destruct (C13_ranges_partition n nw Hw) as ((P1 & P2 & _) & _). split.
  - intros i Hi. rewrite H. destruct (P1 (i - off) ltac:(lia)) as (w & (W1 & W2) & _).
    replace (existsb _ ws) with true; auto. symmetry. apply existsb_exists. exists w. split.
    + apply (Permutation_in _ (Permutation_sym HP)). apply in_seq. lia.
    + apply andb_true_iff. split; [apply Nat.leb_le|apply Nat.ltb_lt]; lia.
  - intros i Hi. rewrite H. destruct (existsb _ ws) eqn:G; auto. exfalso. apply existsb_exists in G as (w & G1 & G2).
    apply andb_true_iff in G2 as (G2 & G3). apply Nat.leb_le in G2. apply Nat.ltb_lt in G3.
    apply (Permutation_in _ HP) in G1. apply in_seq in G1.
    pose proof (P2 w (i - off) ltac:(lia) ltac:(lia)). lia.
Qed.
Print Assumptions C13_all_zeroed.

Lemma numaInitLoop_ok {A} (zero : A) nTgs nVas nw sizes ord arr off :
  0 < nw -> (forall tg, tg < nTgs -> Permutation (ord tg) (seq 0 nw)) -> length sizes = nTgs -> off + list_sum sizes * nVas <= length arr ->
  exists arr', numaInitLoop zero nTgs nVas nw sizes ord (arr, off) = Ok (arr', off + list_sum sizes * nVas) /\ length arr' = length arr /\
    (forall i, off <= i < off + list_sum sizes * nVas -> nth_error arr' i = Some zero) /\
    (forall i, i < off \/ off + list_sum sizes * nVas <= i -> nth_error arr' i = nth_error arr i).
Proof.
  intros Hw HO HS HL. unfold numaInitLoop.
  loop (fun k (st : list A * nat) => let '(arr', o) := st in o = off + list_sum (firstn k sizes) * nVas /\ length arr' = length arr /\
    (forall i, off <= i < o -> nth_error arr' i = Some zero) /\ (forall i, i < off \/ o <= i -> nth_error arr' i = nth_error arr i)) as (arr', o) E (H1 & H2 & H3 & H4).
  - lia.
  - cbn. split; [lia|]. split; auto. split; [intros; lia|auto].
  - intros k (arr', o) Hk (-> & H2 & H3 & H4). destruct (nth_error sizes k) as [n|] eqn:En; [|apply nth_error_None in En; lia].
    rewrite (rd_some _ _ _ En). cbn [bind]. pose proof (firstn_sum_S _ _ _ En) as FS. pose proof (firstn_sum_le sizes (S k)) as FL.
    destruct (C13_all_zeroed zero (n * nVas) nw (off + list_sum (firstn k sizes) * nVas) (ord k) arr' Hw (HO k ltac:(lia))) as (arr2 & E2 & L2 & Z2 & K2); [nia|].
    rewrite E2. cbn [bind]. eexists. split; [reflexivity|]. cbv iota beta. rewrite FS. split; [lia|]. split; [lia|]. split.
    + intros i Hi. destruct (lt_dec i (off + list_sum (firstn k sizes) * nVas)).
      * rewrite K2 by lia. apply H3. lia.
      * apply Z2. lia.
    + intros i Hi. rewrite K2 by lia. apply H4. lia.
  - rewrite <- HS, firstn_all in H1. subst o. exists arr'. auto.
Qed.

(** The initialization by time groups sets all values of all inner and send elements to zero and touches nothing else. *)
Theorem C13_time_groups_zeroed {A} (zero : A) nTgs nIn nSe nVas nw ordI ordS arr :
  0 < nw -> length nIn = nTgs -> length nSe = nTgs ->
  (forall tg, tg < nTgs -> Permutation (ordI tg) (seq 0 nw) /\ Permutation (ordS tg) (seq 0 nw)) ->
  let n := (list_sum nIn + list_sum nSe) * nVas in n <= length arr ->
  numaInitTgs zero nTgs nIn nSe nVas nw ordI ordS arr = Ok (repeat zero n ++ skipn n arr).
Proof.
  intros Hw HI HS HO n HL. unfold numaInitTgs.
  destruct (numaInitLoop_ok zero nTgs nVas nw nIn ordI arr 0) as (a1 & E1 & L1 & Z1 & K1); auto; [apply HO|lia|].
  rewrite E1. cbn [bind].
  destruct (numaInitLoop_ok zero nTgs nVas nw nSe ordS a1 (0 + list_sum nIn * nVas)) as (a2 & E2 & L2 & Z2 & K2); auto; [apply HO|lia|].
  rewrite E2. cbn [bind]. f_equal. apply nth_error_ext'. intros i.
  destruct (lt_dec i n) as [Hi|Hi].
  - rewrite nth_error_app1 by (rewrite repeat_length; lia).
    assert (RP : nth_error (repeat zero n) i = Some zero).
    { rewrite (nth_error_nth' _ zero) by (rewrite repeat_length; lia). now rewrite nth_repeat. }
    rewrite RP. destruct (lt_dec i (list_sum nIn * nVas)).
    + rewrite K2 by lia. apply Z1. lia.
    + apply Z2. lia.
  - rewrite nth_error_app2 by (rewrite repeat_length; lia). rewrite repeat_length, nth_error_skipn'.
    rewrite K2, K1 by lia. f_equal. lia.
Qed.
Print Assumptions C13_time_groups_zeroed.

(* ------------------------------------------------------------------ *)
(** ** Concrete cases *)

(** Times as rational numbers. *)
Definition exOps : fops :=
  mkFops Q 0%Q (inject_Z 3343) (inject_Z (1000 * 1000)) (inject_Z (-1000 * 1000)) (1 # 1000)%Q (2 # 100)%Q
    (fun a b => if Qle_bool a b then a else b) (fun a b => if Qle_bool a b then b else a)
    Qplus Qminus Qmult Qdiv (fun a b => negb (Qle_bool b a)) Qeq_bool
    (fun n => inject_Z (Z.of_nat n)) (fun q => Z.to_nat (Qnum q / Zpos (Qden q))).

Definition exChars : list N := [1; 2; 1; 0; 3; 0; 2; 1; 0; 3; 1; 1]%N.
Definition exHist : list (op exOps) :=
  [ OReg exOps (mkReg 0 1 7 2 9 5%Z [1%N; 2%N] exChars);
    OReg exOps (mkReg 0 2 3 0 4 9%Z [] []);
    OReg exOps (mkReg 1 1 4 1 10 5%Z [2%N] exChars);
    OSetAll exOps RDY 7; OSetAll exOps RDY 4;
    OBal exOps [[1 # 2; 1 # 2; 1 # 2]; [1 # 10; 1 # 5; 6 # 10]; [1; 1 # 2; 3 # 10]]%Q ].

Example C10_ex : exists s, history exOps 3 exHist s /\
  map (fun w => package s 7 w) [0; 1; 2] = [Ok (2, 6, [1; 1]); Ok (8, 3, [4; 3]); Ok (11, 0, [6; 4])] /\
  getWrkTd s 1 = Ok (Some (mkWork 0 1 7 8 3 [4; 3])).
Proof.
  exists (match run exOps 3 exHist shared0 with Ok s => s | Er _ => shared0 end). split; [split|].
  - lia.
  - reflexivity.
  - cbn. unfold regValid. cbn. repeat split; auto; try (right; lia); try lia. intros e [<-|[<-|[<-|[]]]]; reflexivity.
  - vm_compute. reflexivity.
  - cbn. repeat constructor; cbn; lia.
  - vm_compute. split; reflexivity.
Qed.

Example C13_ex : numaInitTgs 0 2 [2; 3] [1; 0] 1 4 (fun _ => [3; 0; 2; 1]) (fun _ => [0; 1; 2; 3]) (seq 10 8)
  = Ok [0; 0; 0; 0; 0; 0; 16; 17].
Proof. reflexivity. Qed.
