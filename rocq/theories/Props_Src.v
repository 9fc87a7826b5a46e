(** Point sources: mapping from the source elements to the sources (C43), application of the sources (C53). *)
From Coq Require Import Sorted Permutation.
From Verif Require Import Util Sources SourceProofs.

Lemma nth_firstn_lt {A} (l : list A) n j x : j < n -> nth j (firstn n l) x = nth j l x.
Proof. revert n j. induction l as [|a l IH]; intros [|n] [|j] H; cbn; try lia; auto. apply IH. lia. Qed.
Lemma nth_skipn' {A} (l : list A) n j x : nth j (skipn n l) x = nth (n + j) l x.
Proof. revert l. induction n as [|n IH]; intros [|a l]; cbn; auto. destruct j; reflexivity. Qed.

Section Src.
Variable T : Type.
Variable d : T.
Variables (add mul : T -> T -> T).
Variable integ : T -> T -> list T -> T -> T -> T.
Variables (nQt nMd nCr nEl : nat).
Variable srt : (nat -> nat) -> list nat -> list nat.
Variable memN : nat -> list nat.
Variable memT : nat -> list T.
Hypothesis SRT : sorts srt.
Hypothesis MEM : allocates memN.
Hypothesis MEMT : allocates memT.
Let dw : raw T := mkRaw [] [] [] [] [] [].

(** ** Inputs *)

(** admissible input: one complete file per fused simulation; all points are in elements of the mesh; basis functions and scalings of all points
    are complete; there are no sources in limited elements *)
Definition input (ws : list (raw T)) (basis : nat -> nat -> nat -> option (list T)) (src lim : list bool) : Prop :=
  length ws = nCr /\ length src = nEl /\ length lim = nEl /\
  (forall e, e < nEl -> nth e src false = true -> nth e lim false = false) /\
  (forall cr w, nth_error ws cr = Some w -> wfRaw T w /\
     (forall i, i < length (wEls w) -> length (nth i (wSca w) []) = nQt) /\
     (forall i e, nth i (wEls w) None = Some e -> e < nEl /\ nth e lim false = false /\ exists b, basis cr e i = Some b /\ length b = nMd)).

Definition fileOf (ws : list (raw T)) (cr : nat) : raw T := nth cr ws dw.
Definition basisOf (basis : nat -> nat -> nat -> option (list T)) (cr e i : nat) : list T := match basis cr e i with Some b => b | None => [] end.

(** ** Result of the initialisation *)

Definition dps : ps T := mkPs [] [] [] [] [] [] [].

Definition data (w : raw T) (bas : nat -> nat -> list T) (iP : list nat) (p : ps T) : Prop :=
  pEl p = map (elN (wEls w)) iP /\ pTime p = map (fun i => nth i (wTime w) d) iP /\ pDt p = map (fun i => nth i (wDt w) d) iP /\
  pSca p = map (fun i => nth i (wSca w) []) iP /\ pBas p = map (fun i => bas (elN (wEls w) i) i) iP /\ length (pPtr p) = length iP + 1 /\
  (forall k, k <= length iP -> nth k (pPtr p) 0 = offs T w iP k) /\ pTs p = concat (map (series T w) iP).

Record built (ws : list (raw T)) basis (src' : list bool) (m : list nat) (fu : list (ps T)) (iPs : list (list nat)) : Prop := {
  bFu : length fu = nCr; bIP : length iPs = nCr; bM : length m = nCr * (length (srcEls src' nEl) + 1);
  bOrd : forall cr, cr < nCr -> ordered (wEls (fileOf ws cr)) (map (elN (wEls (fileOf ws cr))) (nth cr iPs [])) (nth cr iPs []);
  bDat : forall cr, cr < nCr -> data (fileOf ws cr) (basisOf basis cr) (nth cr iPs []) (nth cr fu dps);
  bLo : forall k cr, k < length (srcEls src' nEl) -> cr < nCr ->
    nth (k * nCr + cr) m 0 = cnt (map (elN (wEls (fileOf ws cr))) (nth cr iPs [])) (nth k (srcEls src' nEl) 0);
  bHi : forall k cr, k < length (srcEls src' nEl) -> cr < nCr ->
    nth ((k + 1) * nCr + cr) m 0 = cnt (map (elN (wEls (fileOf ws cr))) (nth cr iPs [])) (S (nth k (srcEls src' nEl) 0)) }.

Lemma init_ok ws basis src lim : input ws basis src lim -> exists src' m fu iPs,
  init T nCr srt memN memT nEl ws basis src lim = Ok (src', m, fu) /\ length src' = nEl /\
  (forall e, nth e src' false = true <-> nth e src false = true \/ exists cr i, cr < nCr /\ nth i (wEls (fileOf ws cr)) None = Some e) /\
  built ws basis src' m fu iPs.
Proof.
  intros (IW & IS & IL & ILM & IF). unfold init.
  assert (FN : forall cr, cr < nCr -> nth_error ws cr = Some (fileOf ws cr)) by (intros cr H; apply nth_error_nth'; lia).
  set (INV := fun k (s : list bool * list (list nat) * list (list nat)) => let '(sr, els, ids) := s in length sr = nEl /\ length ids = k /\
     els = map (fun cr => map (elN (wEls (fileOf ws cr))) (nth cr ids [])) (seq 0 k) /\
     (forall cr, cr < k -> ordered (wEls (fileOf ws cr)) (map (elN (wEls (fileOf ws cr))) (nth cr ids [])) (nth cr ids [])) /\
     (forall e, nth e sr false = true <-> nth e src false = true \/ exists cr i, cr < k /\ nth i (wEls (fileOf ws cr)) None = Some e)).
  match goal with |- context [for_ 0 nCr ?bd (src, [], [])] => destruct (for_ok INV 0 nCr bd (src, [], [])) as (((sr & els) & ids) & E & (I1 & I2 & I3 & I4 & I5)) end; [lia| | |].
  { split; [auto|]. split; [auto|]. split; [auto|]. split; [intros; lia|]. intros e. split; [auto|]. intros [H|(cr & i & H & _)]; [auto|lia]. }
  { intros cr ((sr & els) & ids) Hcr (I1 & I2 & I3 & I4 & I5). rewrite (rd_some _ _ _ (FN cr ltac:(lia))). cbn [bind]. destruct (IF cr _ (FN cr ltac:(lia))) as (F1 & F2 & F3).
    destruct (initIds_ok T srt SRT (fileOf ws cr) sr) as (sr' & eP & iP & E & L & O & F). { intros i e H. rewrite I1. apply (F3 i e H). }
    rewrite E. cbn [bind]. eexists. split; [reflexivity|]. assert (O' := O). destruct O' as (O1 & -> & O3). split; [lia|]. split; [rewrite app_length; cbn; lia|]. split; [|split].
    - rewrite seq_snoc, map_app. cbn [map]. rewrite Nat.add_0_l. f_equal.
      + rewrite I3. apply map_ext_in. intros c Hc. apply in_seq in Hc. rewrite app_nth1 by lia. reflexivity.
      + rewrite app_nth2, I2, Nat.sub_diag by lia. reflexivity.
    - intros c Hc. destruct (Nat.eq_dec c cr) as [->|N]; [rewrite app_nth2, I2, Nat.sub_diag by lia; exact O|]. rewrite app_nth1 by lia. apply I4. lia.
    - intros e. rewrite F, I5. split.
      + intros [[H|(c & i & H1 & H2)]|(i & H)]; [auto|right; exists c, i; split; [lia|auto]|right; exists cr, i; split; [lia|auto]].
      + intros [H|(c & i & H1 & H2)]; [auto|]. destruct (Nat.eq_dec c cr) as [->|N]; [right; eauto|]. left. right. exists c, i. split; [lia|auto]. }
  rewrite E. cbn [bind]. clear E.
  assert (NE : forall cr, cr < nCr -> nth cr els [] = map (elN (wEls (fileOf ws cr))) (nth cr ids [])).
  { intros cr H. rewrite I3. apply nth_error_nth. rewrite nth_error_map, nth_error_seq by auto. reflexivity. }
  assert (IE : forall cr e, cr < nCr -> In e (nth cr els []) -> e < nEl /\ nth e sr false = true).
  { intros cr e Hc H. rewrite NE in H by auto. apply in_map_iff in H as (i & <- & H). destruct (I4 cr Hc) as (P & _ & _). apply (Permutation_in _ (Permutation_sym P)), In_active in H as (e & H).
    destruct (IF cr _ (FN cr Hc)) as (_ & _ & F3). destruct (F3 i e H) as (F4 & _ & _). unfold elN. rewrite H. split; [auto|]. apply I5. right. eauto. }
  assert (LEN : length els = nCr) by (rewrite I3, map_length, seq_length; reflexivity).
  destruct (elSpPs_ok nCr memN MEM nEl sr lim els) as (m & E & M1 & M2 & M3); [lia|lia| |auto| |].
  { intros e He H. apply I5 in H as [H|(cr & i & H1 & H2)]; [auto|]. destruct (IF cr _ (FN cr H1)) as (_ & _ & F3). apply (F3 i e H2). }
  { intros l Hl. apply (In_nth _ _ []) in Hl as (cr & Hc & <-). rewrite LEN in Hc. split; [rewrite NE by auto; apply (I4 cr Hc)|]. intros e He. apply (IE cr); auto. }
  rewrite E. cbn [bind]. clear E.
  match goal with |- context [for_ 0 nCr ?bd []] => destruct (for_ok (fun k fu => length fu = k /\ forall cr, cr < k -> data (fileOf ws cr) (basisOf basis cr) (nth cr ids []) (nth cr fu dps)) 0 nCr bd []) as (fu & E & F1 & F2) end; [lia| | |].
  { split; [auto|]. intros; lia. }
  { intros cr fu Hcr (F1 & F2). rewrite (rd_some _ _ _ (FN cr ltac:(lia))). cbn [bind]. rewrite (rd_ok els cr []) by lia. cbn [bind]. rewrite (rd_ok ids cr []) by lia. cbn [bind]. rewrite NE by lia.
    destruct (I4 cr ltac:(lia)) as (O1 & _ & O3). set (iP := nth cr ids []) in *. set (w := fileOf ws cr) in *. destruct (IF cr _ (FN cr ltac:(lia))) as (G1 & G2 & G3). fold w in G1, G2, G3.
    assert (AC : forall i, In i iP -> exists e, nth i (wEls w) None = Some e) by (intros i H; apply (Permutation_in _ (Permutation_sym O1)), In_active in H; auto).
    assert (EB : initBasisEvals T (basis cr) (map (elN (wEls w)) iP) iP = Ok (map (fun i => basisOf basis cr (elN (wEls w) i) i) iP)).
    { unfold initBasisEvals. rewrite <- (collect (fun i => basisOf basis cr (elN (wEls w) i) i) iP (fun p => e <- rd (map (elN (wEls w)) iP) p;; i <- rd iP p;; match basis cr e i with Some b => Ok b | None => Er Echeck end)).
      - apply for_ext'. intros p o. destruct (rd (map (elN (wEls w)) iP) p) as [e|]; cbn [bind]; [|reflexivity]. destruct (rd iP p) as [i|]; cbn [bind]; [|reflexivity]. destruct (basis cr e i); reflexivity.
      - intros p i Hi. rewrite (rd_some (map (elN (wEls w)) iP) p (elN (wEls w) i)) by (rewrite nth_error_map, Hi; reflexivity). cbn [bind]. rewrite (rd_some _ _ _ Hi). cbn [bind].
        destruct (AC i (nth_error_In _ _ Hi)) as (e & He). destruct (G3 i e He) as (_ & _ & b & Hb & _). unfold basisOf, elN. rewrite He, Hb. reflexivity. }
    rewrite EB. cbn [bind].
    destruct (initTsData_ok T d memN memT MEM MEMT w (map (elN (wEls w)) iP) iP (map (fun i => basisOf basis cr (elN (wEls w) i) i) iP) G1) as (p & E & D); [apply map_length| |].
    { intros i H. destruct (AC i H) as (e & He). destruct (Nat.lt_ge_cases i (length (wEls w))); [auto|]. rewrite nth_overflow in He by auto. discriminate. }
    rewrite E. cbn [bind]. eexists. split; [reflexivity|]. split; [rewrite app_length; cbn; lia|]. intros c Hc. destruct (Nat.eq_dec c cr) as [->|N].
    - rewrite app_nth2, F1, Nat.sub_diag by lia. exact D.
    - rewrite app_nth1 by lia. apply F2. lia. }
  rewrite E. cbn [bind]. exists sr, m, fu, ids. split; [reflexivity|]. split; [auto|]. split; [auto|]. constructor; auto.
  - intros k cr Hk Hc. rewrite M2, NE by auto. reflexivity.
  - intros k cr Hk Hc. rewrite <- NE by auto. destruct (Nat.eq_dec (k + 1) (length (srcEls sr nEl))) as [Ek|Ek].
    + rewrite Ek, M3 by auto. replace k with (length (srcEls sr nEl) - 1) by lia. symmetry. apply cnt_last; [intros e He; apply (IE cr); auto|lia].
    + rewrite M2 by lia. rewrite Nat.add_1_r. apply cnt_next; [intros e He; apply (IE cr); auto|lia].
Qed.

(** ** Application *)

Definition idx (e qt md cr : nat) : nat := ((e * nQt + qt) * nMd + md) * nCr + cr.

Lemma idx_inj e qt md cr e' qt' md' cr' : qt < nQt -> md < nMd -> cr < nCr -> qt' < nQt -> md' < nMd -> cr' < nCr -> idx e qt md cr = idx e' qt' md' cr' -> e = e' /\ qt = qt' /\ md = md' /\ cr = cr'.
Proof.
  intros H1 H2 H3 H1' H2' H3' E. unfold idx in E. apply flat_inj in E as (E & ->); auto. apply flat_inj in E as (E & ->); auto. apply flat_inj in E as (-> & ->); auto.
Qed.
Lemma idx_lt e qt md cr : e < nEl -> qt < nQt -> md < nMd -> cr < nCr -> idx e qt md cr < nEl * nQt * nMd * nCr.
Proof.
  intros He Hq Hm Hc. unfold idx. assert (e * nQt + qt < nEl * nQt) by nia. assert ((e * nQt + qt) * nMd + md < nEl * nQt * nMd) by nia. nia.
Qed.

(** contribution of point i of the file w in element e *)
Definition contrib (w : raw T) (bas : nat -> nat -> list T) (t1 t2 : T) (e i qt md : nat) : T :=
  mul (mul (integ (nth i (wDt w) d) (nth i (wTime w) d) (series T w i) t1 t2) (nth qt (nth i (wSca w) []) d)) (nth md (bas e i) d).

(** all points of a list, in this order *)
Definition total (w : raw T) bas t1 t2 (e qt md : nat) (l : list nat) (v : T) : T := fold_left (fun v i => add v (contrib w bas t1 t2 e i qt md)) l v.

Section Apply.
Variables (ws : list (raw T)) (basis : nat -> nat -> nat -> option (list T)) (src lim src' : list bool) (m : list nat) (fu : list (ps T)) (iPs : list (list nat)).
Hypothesis IN : input ws basis src lim.
Hypothesis BU : built ws basis src' m fu iPs.
Hypothesis LS : length src' = nEl.
Variables t1 t2 : T.

Let els := srcEls src' nEl.
Let pts cr e := filter (fun i => elN (wEls (fileOf ws cr)) i =? e) (nth cr iPs []).

(** the body of the loop over the points *)
Let point cr p dofs :=
        d <- rd fu cr;;
        a <- rd (pPtr d) p;;
        b <- rd (pPtr d) (p + 1);;
        se <- slice T (pTs d) a (b - a);;
        dt <- rd (pDt d) p;;
        ti <- rd (pTime d) p;;
        let int := integ dt ti se t1 t2 in
        for_ 0 nQt (fun qt dofs =>
          e <- rd (pEl d) p;;
          sc <- rd (pSca d) p;;
          s <- rd sc qt;;
          let sca := mul int s in
          for_ 0 nMd (fun md dofs =>
            bs <- rd (pBas d) p;;
            bv <- rd bs md;;
            v <- rd dofs (((e * nQt + qt) * nMd + md) * nCr + cr);;
            wr dofs (((e * nQt + qt) * nMd + md) * nCr + cr) (add v (mul sca bv))) dofs) dofs.

Definition only (e cr : nat) (f : nat -> nat -> T -> T) (v v' : list T) : Prop :=
  length v' = length v /\ forall e' qt md cr', e' < nEl -> qt < nQt -> md < nMd -> cr' < nCr ->
    nth (idx e' qt md cr') v' d = (if (e' =? e) && (cr' =? cr) then f qt md (nth (idx e' qt md cr') v d) else nth (idx e' qt md cr') v d).

Lemma point_ok cr p i e dofs : cr < nCr -> length dofs = nEl * nQt * nMd * nCr -> nth_error (nth cr iPs []) p = Some i -> nth i (wEls (fileOf ws cr)) None = Some e ->
  exists dofs', point cr p dofs = Ok dofs' /\ only e cr (fun qt md v => add v (contrib (fileOf ws cr) (basisOf basis cr) t1 t2 e i qt md)) dofs dofs'.
Proof.
  intros Hc LD Hp He. unfold point. set (w := fileOf ws cr) in *. set (iP := nth cr iPs []) in *.
  assert (Fw : nth_error ws cr = Some w) by (apply nth_error_nth'; rewrite (proj1 IN); auto). destruct IN as (_ & _ & _ & _ & IF). destruct (IF cr w Fw) as (G1 & G2 & G3). destruct (G3 i e He) as (Be & _ & b & Hb & Lb).
  rewrite (rd_ok fu cr dps) by (rewrite (bFu _ _ _ _ _ _ BU); auto). cbn [bind]. destruct (bDat _ _ _ _ _ _ BU cr Hc) as (D1 & D2 & D3 & D4 & D5 & D6 & D7 & D8). fold w iP in D1, D2, D3, D4, D5, D6, D7, D8. set (q := nth cr fu dps) in *.
  assert (Lp : p < length iP) by (apply nth_error_Some; congruence).
  assert (Li : i < length (wEls w)). { destruct (Nat.lt_ge_cases i (length (wEls w))); [auto|]. rewrite nth_overflow in He by auto. discriminate. }
  assert (RM : forall {B} (f : nat -> B), rd (map f iP) p = Ok (f i)) by (intros B f; apply rd_some; rewrite nth_error_map, Hp; reflexivity).
  rewrite (rd_ok _ p 0) by lia. cbn [bind]. rewrite (rd_ok _ (p + 1) 0) by lia. cbn [bind]. rewrite !D7 by lia. rewrite D8, Nat.add_1_r, (slice_ok T w iP p i Hp). cbn [bind].
  rewrite D3, RM. cbn [bind]. rewrite D2, RM. cbn [bind]. rewrite D1, D4, D5. assert (Ee : elN (wEls w) i = e) by (unfold elN; rewrite He; reflexivity).
  set (int := integ (nth i (wDt w) d) (nth i (wTime w) d) (series T w i) t1 t2).
  assert (Bb : basisOf basis cr e i = b) by (unfold basisOf; rewrite Hb; reflexivity).
  set (R := fun q0 m0 (v : list T) => length v = length dofs /\ forall e' qt md cr', e' < nEl -> qt < nQt -> md < nMd -> cr' < nCr ->
    nth (idx e' qt md cr') v d = (if (e' =? e) && (cr' =? cr) && ((qt <? q0) || ((qt =? q0) && (md <? m0))) then add (nth (idx e' qt md cr') dofs d) (contrib w (basisOf basis cr) t1 t2 e i qt md) else nth (idx e' qt md cr') dofs d)).
  match goal with |- exists dofs', for_ 0 nQt ?bd dofs = _ /\ _ => destruct (for_ok (fun q0 => R q0 0) 0 nQt bd dofs) as (v & E & RL & RV) end; [lia| | |].
  { split; [auto|]. intros e' qt md cr' _ _ _ _. replace ((qt <? 0) || ((qt =? 0) && (md <? 0))) with false by (symmetry; apply orb_false_iff; split; [reflexivity|apply andb_false_iff; right; reflexivity]). rewrite andb_false_r. reflexivity. }
  { intros q0 v Hq RV. rewrite !RM. cbn [bind]. rewrite Ee. rewrite (rd_ok _ q0 d) by (rewrite G2 by auto; lia). cbn [bind].
    match goal with |- exists s', for_ 0 nMd ?bd v = _ /\ _ => destruct (for_ok (fun m0 => R q0 m0) 0 nMd bd v) as (v' & E & RL' & RV') end; [lia|exact RV| |].
    - intros m0 u Hm (UL & UV). rewrite ?RM. cbn [bind]. rewrite ?Ee, Bb. rewrite (rd_ok _ m0 d) by lia. cbn [bind]. assert (Bx := idx_lt e q0 m0 cr Be ltac:(lia) ltac:(lia) Hc). fold (idx e q0 m0 cr).
      rewrite (rd_ok _ (idx e q0 m0 cr) d) by lia. cbn [bind]. rewrite wr_ok by lia. eexists. split; [reflexivity|]. split; [rewrite length_upd; auto|].
      intros e' qt md cr' He' Hqt Hmd Hcr'. destruct (Nat.eq_dec (idx e q0 m0 cr) (idx e' qt md cr')) as [X|X].
      + apply idx_inj in X as (<- & <- & <- & <-); auto; try lia. rewrite nth_upd_eq by lia. rewrite UV by (auto; lia). rewrite !Nat.eqb_refl. cbn [andb].
        rewrite !Nat.ltb_irrefl. cbn [orb]. rewrite (proj2 (Nat.ltb_lt m0 (S m0))) by lia. unfold contrib. fold int. rewrite Bb. reflexivity.
      + rewrite nth_upd_ne by auto. rewrite UV by auto. destruct (Nat.eqb_spec e' e) as [->|]; [|reflexivity]. destruct (Nat.eqb_spec cr' cr) as [->|]; [|reflexivity]. cbn [andb].
        destruct (Nat.eqb_spec qt q0) as [->|]; [|reflexivity]. cbn [andb]. destruct (Nat.ltb_spec md m0), (Nat.ltb_spec md (S m0)); auto; try lia. assert (md = m0) by lia. subst. contradiction.
    - exists v'. split; [exact E|]. split; [auto|]. intros e' qt md cr' He' Hqt Hmd Hcr'. rewrite RV' by auto. replace ((qt <? S q0) || ((qt =? S q0) && (md <? 0))) with ((qt <? q0) || ((qt =? q0) && (md <? nMd))); [reflexivity|].
      rewrite (proj2 (Nat.ltb_lt md nMd)) by auto. destruct (Nat.ltb_spec qt q0), (Nat.eqb_spec qt q0), (Nat.ltb_spec qt (S q0)), (Nat.eqb_spec qt (S q0)); cbn; auto; lia. }
  exists v. split; [exact E|]. split; [auto|]. intros e' qt md cr' He' Hqt Hmd Hcr'. rewrite RV by auto. rewrite (proj2 (Nat.ltb_lt qt nQt)) by auto. cbn [orb]. rewrite andb_true_r. reflexivity.
Qed.

Lemma points_ok k cr dofs : k < length els -> cr < nCr -> length dofs = nEl * nQt * nMd * nCr -> exists dofs',
  for_ (nth (k * nCr + cr) m 0) (nth ((k + 1) * nCr + cr) m 0) (point cr) dofs = Ok dofs' /\
  only (nth k els 0) cr (fun qt md v => total (fileOf ws cr) (basisOf basis cr) t1 t2 (nth k els 0) qt md (pts cr (nth k els 0)) v) dofs dofs'.
Proof.
  intros Hk Hc LD. rewrite (bLo _ _ _ _ _ _ BU), (bHi _ _ _ _ _ _ BU) by auto. fold els. set (e := nth k els 0). set (iP := nth cr iPs []). set (w := fileOf ws cr).
  set (lo := cnt (map (elN (wEls w)) iP) e). set (hi := cnt (map (elN (wEls w)) iP) (S e)). assert (LH : lo <= hi) by (apply cnt_mono; lia).
  destruct (bOrd _ _ _ _ _ _ BU cr Hc) as (O1 & _ & O3). fold w iP in O1, O3.
  assert (HL : hi <= length iP) by (unfold hi; rewrite <- (map_length (elN (wEls w)) iP); apply cnt_le).
  assert (SG := seg_filter (elN (wEls w)) e iP O3). fold lo hi in SG. change (firstn (hi - lo) (skipn lo iP) = pts cr e) in SG.
  match goal with |- exists dofs', for_ lo hi ?bd dofs = _ /\ _ => destruct (for_ok (fun p v => only e cr (fun qt md v => total w (basisOf basis cr) t1 t2 e qt md (firstn (p - lo) (skipn lo iP)) v) dofs v) lo hi bd dofs) as (v & E & V) end; [auto| | |].
  { rewrite Nat.sub_diag. split; [auto|]. intros. destruct (_ && _); reflexivity. }
  { intros p v Hp (VL & VV). destruct (nth_error iP p) as [i|] eqn:Ei; [|apply nth_error_None in Ei; lia].
    assert (Ke : elN (wEls w) i = e).
    { assert (N : nth p (map (elN (wEls w)) iP) 0 = elN (wEls w) i). { apply nth_error_nth. rewrite nth_error_map, Ei. reflexivity. }
      assert (A := cnt_pos _ e p O3 ltac:(rewrite map_length; lia)). assert (B := cnt_pos _ (S e) p O3 ltac:(rewrite map_length; lia)). fold lo in A. fold hi in B. rewrite N in A, B. lia. }
    assert (He : nth i (wEls w) None = Some e). { assert (X : In i (active (wEls w))) by (apply (Permutation_in _ (Permutation_sym O1)); eapply nth_error_In; eauto). apply In_active in X as (e0 & X). unfold elN in Ke. rewrite X in *. congruence. }
    destruct (point_ok cr p i e v Hc ltac:(lia) Ei He) as (v' & E & L' & V'). exists v'. split; [exact E|]. split; [lia|]. intros e' qt md cr' He' Hq Hm Hcr'. rewrite V', VV by auto.
    destruct (_ && _); [|reflexivity]. replace (S p - lo) with (S (p - lo)) by lia. rewrite (firstn_S_snoc _ (p - lo) i). { unfold total. rewrite fold_left_app. reflexivity. }
    rewrite <- Ei. replace p with (lo + (p - lo)) at 2 by lia. generalize (p - lo) as j. clear. intros j. generalize iP as l. clear. induction lo as [|a IH]; intros l; [reflexivity|]. destruct l; [destruct j; reflexivity|]. cbn. apply IH. }
  exists v. split; [exact E|]. rewrite SG in V. exact V.
Qed.

(** whether element e is among the sparse source elements first, .., first+size-1 *)
Definition inPkg (first size e : nat) : bool := existsb (Nat.eqb e) (firstn size (skipn first els)).

Lemma apply_ok first size dofs : first + size <= length els -> length dofs = nEl * nQt * nMd * nCr -> exists dofs',
  apply T add mul integ nQt nMd nCr m fu first size t1 t2 dofs = Ok dofs' /\ length dofs' = length dofs /\
  forall e qt md cr, e < nEl -> qt < nQt -> md < nMd -> cr < nCr -> nth (idx e qt md cr) dofs' d =
    if inPkg first size e then total (fileOf ws cr) (basisOf basis cr) t1 t2 e qt md (pts cr e) (nth (idx e qt md cr) dofs d) else nth (idx e qt md cr) dofs d.
Proof.
  intros HS LD. unfold apply.
  assert (ML : forall k c, k <= length els -> c < nCr -> k * nCr + c < length m) by (intros k c Hk Hc; rewrite (bM _ _ _ _ _ _ BU); fold els; nia).
  assert (ND : forall i j, i < length els -> j < length els -> nth i els 0 = nth j els 0 -> i = j).
  { intros i j Hi Hj E. assert (SS := srcEls_sorted src' nEl). fold els in SS. destruct (lt_eq_lt_dec i j) as [[L|X]|L]; auto; exfalso; [assert (X := SS_nth _ i j SS ltac:(lia))|assert (X := SS_nth _ j i SS ltac:(lia))]; lia. }
  set (R := fun k c (v : list T) => length v = length dofs /\ forall e qt md cr, e < nEl -> qt < nQt -> md < nMd -> cr < nCr -> nth (idx e qt md cr) v d =
     if inPkg first (k - first) e || ((e =? nth k els 0) && (cr <? c)) then total (fileOf ws cr) (basisOf basis cr) t1 t2 e qt md (pts cr e) (nth (idx e qt md cr) dofs d) else nth (idx e qt md cr) dofs d).
  assert (PK : forall k e, first <= k -> k < length els -> inPkg first (S k - first) e = inPkg first (k - first) e || (e =? nth k els 0)).
  { intros k e H1 H2. unfold inPkg. replace (S k - first) with (S (k - first)) by lia. rewrite (firstn_S_snoc _ (k - first) (nth k els 0)), existsb_app; [cbn; rewrite orb_false_r; reflexivity|].
    rewrite <- (nth_error_nth' els 0 H2). replace k with (first + (k - first)) at 2 by lia. generalize (k - first) as j. generalize els as l. clear. intros l j. revert l. induction first as [|a IH]; intros l; [reflexivity|]. destruct l; [destruct j; reflexivity|]. cbn. apply IH. }
  assert (NP : forall k e, first <= k -> k < length els -> e = nth k els 0 -> inPkg first (k - first) e = false).
  { intros k e H1 H2 ->. unfold inPkg. destruct (existsb _ _) eqn:X; auto. exfalso. apply existsb_exists in X as (x & X1 & X2). apply Nat.eqb_eq in X2. subst x. apply (In_nth _ _ 0) in X1 as (j & Hj & Y).
    rewrite firstn_length, skipn_length in Hj. rewrite nth_firstn_lt in Y by lia. rewrite nth_skipn' in Y. apply ND in Y; lia. }
  match goal with |- exists dofs', for_ first (first + size) ?bd dofs = _ /\ _ => destruct (for_ok (fun k v => R k 0 v) first (first + size) bd dofs) as (v & E & VL & VV) end; [lia| | |].
  { split; [auto|]. intros e qt md cr _ _ _ _. rewrite Nat.sub_diag. unfold inPkg. cbn [firstn existsb]. replace (cr <? 0) with false by reflexivity. rewrite andb_false_r. reflexivity. }
  { intros k v Hk RV. match goal with |- exists s', for_ 0 nCr ?bd v = _ /\ _ => destruct (for_ok (fun c v => R k c v) 0 nCr bd v) as (v' & E & VL & VV) end; [lia|exact RV| |].
    - intros c u Hc (UL & UV). rewrite (rd_ok m _ 0) by (apply ML; lia). cbn [bind]. rewrite (rd_ok m _ 0) by (apply ML; lia). cbn [bind].
      destruct (points_ok k c u ltac:(lia) ltac:(lia) ltac:(lia)) as (u' & E & UL' & UV'). exists u'. split; [exact E|]. split; [lia|]. intros e qt md cr He Hq Hm Hcr. rewrite UV', UV by auto.
      destruct (Nat.eqb_spec e (nth k els 0)) as [X|X]; [|cbn [andb]; reflexivity]. cbn [andb]. rewrite (NP k e) by (auto; lia). cbn [orb]. destruct (Nat.eqb_spec cr c) as [->|Y].
      + rewrite Nat.ltb_irrefl. rewrite (proj2 (Nat.ltb_lt c (S c))) by lia. rewrite <- X. reflexivity.
      + replace (cr <? S c) with (cr <? c); [reflexivity|]. destruct (Nat.ltb_spec cr c), (Nat.ltb_spec cr (S c)); auto; lia.
    - exists v'. split; [exact E|]. split; [auto|]. intros e qt md cr He Hq Hm Hcr. rewrite VV by auto. rewrite PK by lia. rewrite (proj2 (Nat.ltb_lt cr nCr)) by auto. rewrite andb_true_r.
      replace (cr <? 0) with false by reflexivity. rewrite andb_false_r, orb_false_r. reflexivity. }
  exists v. split; [exact E|]. split; [auto|]. intros e qt md cr He Hq Hm Hcr. rewrite VV by auto. replace (first + size - first) with size by lia. replace (cr <? 0) with false by reflexivity. rewrite andb_false_r, orb_false_r. reflexivity.
Qed.

(** a sequence of packages *)
Fixpoint applyAll (pk : list (nat * nat)) (dofs : list T) : res (list T) :=
  match pk with [] => Ok dofs | (first, size) :: r => dofs <- apply T add mul integ nQt nMd nCr m fu first size t1 t2 dofs;; applyAll r dofs end.

Lemma inPkg_spec first size e : first + size <= length els -> (inPkg first size e = true <-> exists k, first <= k < first + size /\ nth k els 0 = e).
Proof.
  intros H. unfold inPkg. rewrite existsb_exists. split.
  - intros (x & H1 & H2). apply Nat.eqb_eq in H2. subst x. apply (In_nth _ _ 0) in H1 as (j & Hj & Y). rewrite firstn_length, skipn_length in Hj. rewrite nth_firstn_lt in Y by lia. rewrite nth_skipn' in Y. exists (first + j). split; [lia|auto].
  - intros (k & Hk & <-). exists (nth k els 0). split; [|apply Nat.eqb_refl]. replace (nth k els 0) with (nth (k - first) (firstn size (skipn first els)) 0).
    + apply nth_In. rewrite firstn_length, skipn_length. lia.
    + rewrite nth_firstn_lt by lia. rewrite nth_skipn'. f_equal. lia.
Qed.

Lemma applyAll_ok pk dofs : Forall (fun q => fst q + snd q <= length els) pk -> NoDup (concat (map (fun q => seq (fst q) (snd q)) pk)) -> length dofs = nEl * nQt * nMd * nCr -> exists dofs',
  applyAll pk dofs = Ok dofs' /\ length dofs' = length dofs /\
  forall e qt md cr, e < nEl -> qt < nQt -> md < nMd -> cr < nCr -> nth (idx e qt md cr) dofs' d =
    if existsb (fun q => inPkg (fst q) (snd q) e) pk then total (fileOf ws cr) (basisOf basis cr) t1 t2 e qt md (pts cr e) (nth (idx e qt md cr) dofs d) else nth (idx e qt md cr) dofs d.
Proof.
  revert dofs. induction pk as [|(f, z) pk IH]; intros dofs FA ND LD; cbn [applyAll].
  - exists dofs. split; [auto|]. split; [auto|]. reflexivity.
  - inversion FA as [|? ? F1 F2]; subst. cbn [fst snd] in F1. cbn [map concat fst snd] in ND. destruct (apply_ok f z dofs F1 LD) as (d1 & E & L1 & V1). rewrite E. cbn [bind].
    assert (ND2 : NoDup (concat (map (fun q => seq (fst q) (snd q)) pk))) by (revert ND; generalize (seq f z) as a; induction a as [|x a IHa]; cbn; intros X; [auto|inversion X; auto]).
    destruct (IH d1 F2 ND2 ltac:(congruence)) as (d2 & E2 & L2 & V2). exists d2. split; [exact E2|]. split; [congruence|]. intros e qt md cr He Hq Hm Hc. rewrite V2, V1 by auto. cbn [existsb fst snd].
    destruct (inPkg f z e) eqn:X; cbn [orb]; [|reflexivity]. destruct (existsb _ pk) eqn:Y; [|reflexivity]. exfalso. apply existsb_exists in Y as ((f', z') & Y1 & Y2). cbn [fst snd] in Y2. rewrite Forall_forall in F2. assert (F' := F2 _ Y1). cbn [fst snd] in F'.
    apply inPkg_spec in X as (k & K1 & K2); auto. apply inPkg_spec in Y2 as (k' & K1' & K2'); auto. assert (k = k').
    { destruct (lt_eq_lt_dec k k') as [[L|Z]|L]; auto; exfalso; assert (SS := srcEls_sorted src' nEl); fold els in SS; [assert (Z := SS_nth _ k k' SS ltac:(lia))|assert (Z := SS_nth _ k' k SS ltac:(lia))]; lia. }
    subst k'. assert (I1 : In k (seq f z)) by (apply in_seq; lia). assert (I2 : In k (concat (map (fun q => seq (fst q) (snd q)) pk))). { apply in_concat. exists (seq f' z'). split; [apply in_map_iff; exists (f', z'); auto|apply in_seq; lia]. }
    revert ND I1 I2. clear. generalize (seq f z) as a. induction a as [|x a IHa]; cbn; intros ND I1 I2; [auto|]. inversion ND; subst. destruct I1 as [->|I1]; [apply H1, in_or_app; auto|auto].
Qed.
End Apply.

(** C43: the initialisation succeeds and flags exactly the elements with point sources (in addition to those flagged before). The returned mapping, a row of nCr entries for
    every flagged element in ascending order and a final one, is such that the entries of the rows k and k+1 of a fused simulation enclose exactly the sources of this simulation
    in the k-th flagged element. The sources are the points of the file which are in the mesh, each exactly once. *)
Theorem C43_mapping ws basis src lim : input ws basis src lim -> exists src' m fu, init T nCr srt memN memT nEl ws basis src lim = Ok (src', m, fu) /\
  (forall e, nth e src' false = true <-> nth e src false = true \/ exists cr i, cr < nCr /\ nth i (wEls (fileOf ws cr)) None = Some e) /\
  length m = nCr * (length (srcEls src' nEl) + 1) /\ length fu = nCr /\
  forall cr, cr < nCr -> let p := nth cr fu dps in
    (exists ids, Permutation ids (active (wEls (fileOf ws cr))) /\ pEl p = map (elN (wEls (fileOf ws cr))) ids) /\
    forall k, k < length (srcEls src' nEl) ->
      nth (k * nCr + cr) m 0 <= nth ((k + 1) * nCr + cr) m 0 <= length (pEl p) /\
      forall s, s < length (pEl p) -> (nth (k * nCr + cr) m 0 <= s < nth ((k + 1) * nCr + cr) m 0 <-> nth s (pEl p) 0 = nth k (srcEls src' nEl) 0).
Proof.
  intros IN. destruct (init_ok ws basis src lim IN) as (src' & m & fu & iPs & E & LS & FL & BU). exists src', m, fu. split; [exact E|]. split; [exact FL|]. split; [apply BU|]. split; [apply BU|].
  intros cr Hc p. destruct (bDat _ _ _ _ _ _ BU cr Hc) as (D1 & _). fold p in D1. destruct (bOrd _ _ _ _ _ _ BU cr Hc) as (O1 & _ & O3). split.
  - exists (nth cr iPs []). split; [apply Permutation_sym; exact O1|exact D1].
  - intros k Hk. rewrite (bLo _ _ _ _ _ _ BU), (bHi _ _ _ _ _ _ BU) by auto. rewrite <- D1. rewrite <- D1 in O3. split.
    + split; [apply cnt_mono; lia|apply cnt_le].
    + intros s Hs. assert (A := cnt_pos _ (nth k (srcEls src' nEl) 0) s O3 Hs). assert (B := cnt_pos _ (S (nth k (srcEls src' nEl) 0)) s O3 Hs). lia.
Qed.

(** C43: the two permutations of the sources are inverse to each other *)
Theorem C43_permutations els : let '(per, perI) := getSrcPerms srt els in
  Permutation (seq 0 (length els)) per /\ StronglySorted (fun a b => nth a els 0 <= nth b els 0) per /\
  forall k, k < length els -> nth (nth k perI 0) per 0 = k /\ nth (nth k per 0) perI 0 = k.
Proof. apply perms_inverse. exact SRT. Qed.

(** C53: for every fused simulation and element there is a fixed order of the element's points, such that every application of the sources of a range of source elements adds the
    contributions of exactly the element's points in this order to the elements in the range, and touches no other degrees of freedom *)
Theorem C53_apply ws basis src lim : input ws basis src lim -> exists src' m fu, init T nCr srt memN memT nEl ws basis src lim = Ok (src', m, fu) /\ exists ord,
  (forall cr e, cr < nCr -> Permutation (ord cr e) (pointsIn (wEls (fileOf ws cr)) e)) /\
  forall t1 t2 first size dofs, first + size <= length (srcEls src' nEl) -> length dofs = nEl * nQt * nMd * nCr -> exists dofs',
    apply T add mul integ nQt nMd nCr m fu first size t1 t2 dofs = Ok dofs' /\ length dofs' = length dofs /\
    forall e qt md cr, e < nEl -> qt < nQt -> md < nMd -> cr < nCr -> let v := nth (idx e qt md cr) dofs d in let v' := nth (idx e qt md cr) dofs' d in
      (In e (firstn size (skipn first (srcEls src' nEl))) -> v' = total (fileOf ws cr) (basisOf basis cr) t1 t2 e qt md (ord cr e) v) /\
      (~ In e (firstn size (skipn first (srcEls src' nEl))) -> v' = v).
Proof.
  intros IN. destruct (init_ok ws basis src lim IN) as (src' & m & fu & iPs & E & LS & FL & BU). exists src', m, fu. split; [exact E|].
  exists (fun cr e => filter (fun i => elN (wEls (fileOf ws cr)) i =? e) (nth cr iPs [])). split.
  - intros cr e Hc. apply (ordered_in _ _ _ e (bOrd _ _ _ _ _ _ BU cr Hc)).
  - intros t1 t2 first size dofs HS LD. destruct (apply_ok ws basis src lim src' m fu iPs IN BU LS t1 t2 first size dofs HS LD) as (dofs' & E' & L' & V'). exists dofs'. split; [exact E'|]. split; [exact L'|].
    intros e qt md cr He Hq Hm Hc v v'. unfold v', v. rewrite V' by auto. unfold inPkg. split; intros X.
    + replace (existsb (Nat.eqb e) _) with true; [reflexivity|]. symmetry. apply existsb_exists. exists e. split; [exact X|apply Nat.eqb_refl].
    + destruct (existsb (Nat.eqb e) _) eqn:Y; [|reflexivity]. exfalso. apply X. apply existsb_exists in Y as (x & Y1 & Y2). apply Nat.eqb_eq in Y2. subst. exact Y1.
Qed.

(** C53: if the source elements are distributed to packages, each to exactly one, then a time step applies every point of the file in the mesh exactly once, to its element, whatever the order of the packages *)
Theorem C53_step ws basis src lim : input ws basis src lim -> exists src' m fu, init T nCr srt memN memT nEl ws basis src lim = Ok (src', m, fu) /\ exists ord,
  (forall cr e, cr < nCr -> Permutation (ord cr e) (pointsIn (wEls (fileOf ws cr)) e)) /\
  forall t1 t2 pk dofs, Permutation (concat (map (fun q => seq (fst q) (snd q)) pk)) (seq 0 (length (srcEls src' nEl))) -> length dofs = nEl * nQt * nMd * nCr -> exists dofs',
    applyAll m fu t1 t2 pk dofs = Ok dofs' /\ length dofs' = length dofs /\
    forall e qt md cr, e < nEl -> qt < nQt -> md < nMd -> cr < nCr ->
      nth (idx e qt md cr) dofs' d = total (fileOf ws cr) (basisOf basis cr) t1 t2 e qt md (ord cr e) (nth (idx e qt md cr) dofs d).
Proof.
  intros IN. destruct (init_ok ws basis src lim IN) as (src' & m & fu & iPs & E & LS & FL & BU). exists src', m, fu. split; [exact E|].
  exists (fun cr e => filter (fun i => elN (wEls (fileOf ws cr)) i =? e) (nth cr iPs [])). 
  assert (PO : forall cr e, cr < nCr -> Permutation (filter (fun i => elN (wEls (fileOf ws cr)) i =? e) (nth cr iPs [])) (pointsIn (wEls (fileOf ws cr)) e)) by (intros cr e Hc; apply (ordered_in _ _ _ e (bOrd _ _ _ _ _ _ BU cr Hc))).
  split; [exact PO|]. intros t1 t2 pk dofs PM LD.
  (* empty packages are irrelevant *)
  set (pk' := filter (fun q => 0 <? snd q) pk).
  assert (EM : forall pk dofs, applyAll m fu t1 t2 pk dofs = applyAll m fu t1 t2 (filter (fun q => 0 <? snd q) pk) dofs).
  { clear. induction pk as [|(f, z) pk IH]; intros dofs; cbn [applyAll filter snd]; [reflexivity|]. destruct (Nat.ltb_spec 0 z) as [H|H].
    - cbn [applyAll]. destruct (apply T add mul integ nQt nMd nCr m fu f z t1 t2 dofs); cbn [bind]; auto.
    - assert (z = 0) by lia. subst. unfold apply at 1. rewrite Nat.add_0_r, for_empty by lia. cbn [bind]. apply IH. }
  assert (EC : concat (map (fun q => seq (fst q) (snd q)) pk') = concat (map (fun q => seq (fst q) (snd q)) pk)).
  { unfold pk'. clear. induction pk as [|(f, z) pk IH]; cbn [filter snd]; [reflexivity|]. destruct (Nat.ltb_spec 0 z) as [H|H]; cbn [map concat fst snd]; [rewrite IH; reflexivity|]. assert (z = 0) by lia. subst. cbn. exact IH. }
  rewrite EM. fold pk'. rewrite <- EC in PM.
  destruct (applyAll_ok ws basis src lim src' m fu iPs IN BU LS t1 t2 pk' dofs) as (dofs' & E' & L' & V').
  - apply Forall_forall. intros (f, z) Q. cbn [fst snd]. assert (Z : 0 < z) by (apply filter_In in Q as (_ & Q); apply Nat.ltb_lt in Q; exact Q).
    assert (X : In (f + z - 1) (seq 0 (length (srcEls src' nEl)))). { apply (Permutation_in _ PM), in_concat. exists (seq f z). split; [apply in_map_iff; exists (f, z); auto|apply in_seq; lia]. }
    apply in_seq in X. lia.
  - eapply Permutation_NoDup; [apply Permutation_sym; exact PM|apply seq_NoDup].
  - exact LD.
  - exists dofs'. split; [exact E'|]. split; [exact L'|]. intros e qt md cr He Hq Hm Hc. rewrite V' by auto. destruct (existsb _ pk') eqn:X; [reflexivity|].
    (* the element is not a source element *)
    assert (NS : nth e src' false <> true).
    { intros S. assert (IE : In e (srcEls src' nEl)) by (apply In_srcEls; auto). apply (In_nth _ _ 0) in IE as (k & Hk & Ek).
      assert (IK : In k (concat (map (fun q => seq (fst q) (snd q)) pk'))) by (apply (Permutation_in _ (Permutation_sym PM)), in_seq; lia).
      apply in_concat in IK as (l & I1 & I2). apply in_map_iff in I1 as ((f, z) & <- & I1). cbn [fst snd] in I2. apply in_seq in I2.
      assert (Y : existsb (fun q => inPkg src' (fst q) (snd q) e) pk' = true).
      { apply existsb_exists. exists (f, z). split; [exact I1|]. cbn [fst snd]. assert (FZ : f + z <= length (srcEls src' nEl)). { assert (X' : In (f + z - 1) (seq 0 (length (srcEls src' nEl)))). { apply (Permutation_in _ PM), in_concat. exists (seq f z). split; [apply in_map_iff; exists (f, z); auto|apply in_seq; lia]. } apply in_seq in X'. lia. }
        apply inPkg_spec; auto. exists k. split; [lia|exact Ek]. }
      congruence. }
    replace (filter _ _) with (@nil nat); [reflexivity|]. assert (PP := PO cr e Hc). destruct (pointsIn (wEls (fileOf ws cr)) e) as [|i l] eqn:Z; [apply Permutation_sym, Permutation_nil in PP; auto|]. exfalso. apply NS, FL. right. exists cr, i. split; [exact Hc|].
    assert (II : In i (pointsIn (wEls (fileOf ws cr)) e)) by (rewrite Z; left; reflexivity). apply filter_In in II as (_ & II). unfold isEl in II. destruct (nth i _ None) as [x|]; [apply Nat.eqb_eq in II; congruence|discriminate].
Qed.
End Src.

Print Assumptions C43_mapping.
Print Assumptions C43_permutations.
Print Assumptions C53_apply.
Print Assumptions C53_step.

(** ** Example: two fused simulations with different sources in four elements, one point outside of the mesh *)
Fixpoint insKey (key : nat -> nat) (x : nat) (l : list nat) : list nat :=
  match l with [] => [x] | y :: r => if key x <=? key y then x :: l else y :: insKey key x r end.
Definition exSrt (key : nat -> nat) (l : list nat) : list nat := fold_right (insKey key) [] l.

Lemma exSrt_sorts : sorts exSrt.
Proof.
  intros key l. assert (PI : forall x l, Permutation (x :: l) (insKey key x l)).
  { intros x r. induction r as [|y r IH]; cbn; [auto|]. destruct (_ <=? _); [auto|]. eapply Permutation_trans; [apply perm_swap|]. constructor. exact IH. }
  induction l as [|x l (P & S)]; [split; constructor|]. change (exSrt key (x :: l)) with (insKey key x (exSrt key l)). split.
  - eapply Permutation_trans; [|apply PI]. constructor. exact P.
  - revert S. generalize (exSrt key l) as r. clear P. induction r as [|y r IH]; intros S; cbn; [repeat constructor|]. inversion S; subst. destruct (Nat.leb_spec (key x) (key y)).
    + constructor; [auto|]. constructor; [auto|]. eapply Forall_impl; [|exact H2]. cbn. intros; lia.
    + constructor; [auto|]. apply (Permutation_Forall (PI x r)). constructor; [lia|auto].
Qed.

Definition exMemN (n : nat) : list nat := repeat 77 n.
Definition exMemT (n : nat) : list Z := repeat 55%Z n.

(** run 0: points in the elements 2, 0, none, 2; run 1: a point in the element 3 *)
Definition exWs : list (raw Z) :=
  [mkRaw [Some 2; Some 0; None; Some 2] [0; 1; 2; 3]%Z [1; 1; 2; 2]%Z [[1; 2]; [3; 4]; [5; 6]; [7; 8]]%Z [0; 1; 3; 4; 6] [10; 20; 21; 30; 40; 41]%Z;
   mkRaw [Some 3] [5]%Z [1]%Z [[1; 1]]%Z [0; 1] [9]%Z].
Definition exBasis (cr e i : nat) : option (list Z) := Some [1%Z; Z.of_nat (100 * cr + 10 * e + i)].
Definition exInteg (dt t : Z) (s : list Z) (t1 t2 : Z) : Z := (dt * t + fold_left Z.add s (t2 - t1))%Z.

Example C43_ex_input : input Z 2 2 2 4 exWs exBasis [false; false; false; false] [false; true; false; false].
Proof.
  split; [reflexivity|]. split; [reflexivity|]. split; [reflexivity|]. split.
  - intros e He H. do 4 (destruct e as [|e]; [discriminate|]). lia.
  - intros cr w H. destruct cr as [|[|cr]]; cbn in H; [inversion H; subst; clear H|inversion H; subst; clear H|destruct cr; discriminate].
    + split; [|split].
      * split; [reflexivity|]. split; [reflexivity|]. split; [reflexivity|]. split; [reflexivity|]. intros i Hi. cbn in Hi. do 4 (destruct i as [|i]; [cbn; lia|]). lia.
      * intros i Hi. cbn in Hi. do 4 (destruct i as [|i]; [reflexivity|]). lia.
      * intros i e H. do 4 (destruct i as [|i]; [cbn in H; first [discriminate|inversion H; subst; split; [lia|split; [reflexivity|eexists; split; reflexivity]]]|]). destruct i; discriminate.
    + split; [|split].
      * split; [reflexivity|]. split; [reflexivity|]. split; [reflexivity|]. split; [reflexivity|]. intros i Hi. cbn in Hi. destruct i as [|i]; [cbn; lia|]. lia.
      * intros i Hi. cbn in Hi. destruct i as [|i]; [reflexivity|]. lia.
      * intros i e H. destruct i as [|i]; [cbn in H; inversion H; subst; split; [lia|split; [reflexivity|eexists; split; reflexivity]]|]. destruct i; discriminate.
Qed.

Example C43_ex_mem : allocates exMemN /\ allocates exMemT.
Proof. split; intros n; apply repeat_length. Qed.

Example C43_ex : match init Z 2 exSrt exMemN exMemT 4 exWs exBasis [false; false; false; false] [false; true; false; false] with
  | Ok (src', m, fu) => src' = [true; false; true; true] /\ m = [0; 0; 1; 0; 3; 0; 3; 1] /\ map (@pEl Z) fu = [[0; 2; 2]; [3]] /\ map (@pTs Z) fu = [[20; 21; 10; 40; 41]; [9]]%Z /\
      (** the second and third source element in two packages *)
      applyAll Z Z.add Z.mul exInteg 2 2 2 m fu 0%Z 10%Z [(2, 1); (0, 2)] (repeat 0%Z 32) =
        Ok [156; 0; 156; 0; 208; 0; 208; 0;  0; 0; 0; 0; 0; 0; 0; 0;  699; 0; 16017; 0; 816; 0; 18648; 0;  0; 24; 0; 3120; 0; 24; 0; 3120]%Z
  | Er _ => False end.
Proof. vm_compute. repeat split. Qed.
