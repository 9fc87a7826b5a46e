(** Super-cells at internal boundaries: proofs. *)
From Coq Require Import List Arith Bool QArith Lqa Lia.
From Verif Require Import Util Comm SubGrid IbWriterV SuperCell SuperCellSpec.
Import ListNotations.
Open Scope nat_scope.

(** ** Stencils *)
Section Stencils.
  Variable (nFas nSfs nScs : nat) (t : list (list nat)).
  Notation adj := (adj t). Notation ghost := (ghost nSfs nScs). Notation touches := (touches nFas nSfs nScs t). Notation pair := (pair nFas nSfs nScs t).
  Hypothesis tab : subTable nFas nSfs nScs t.

  Lemma rd2_adj a s : a < nScs + nFas * nSfs -> s < nFas -> rd2 t a s = Ok (adj a s).
  Proof.
    intros Ha Hs. destruct tab as (L & R & _). unfold rd2. rewrite (rd_ok t a []) by lia. cbn [bind]. unfold SuperCellSpec.adj. apply rd_ok. rewrite (R (nth a t [])); auto. apply nth_In. lia.
  Qed.
  Definition bndb (fa a : nat) : bool := existsb (fun s => (nScs + fa * nSfs <=? adj a s) && (adj a s <? nScs + (fa + 1) * nSfs)) (seq 0 nFas).
  Lemma bndb_ok fa a : bndb fa a = true <-> touches fa a.
  Proof.
    unfold bndb, SuperCellSpec.touches, SuperCellSpec.ghost. rewrite existsb_exists. split.
    - intros (s & Hs & H). apply in_seq in Hs. apply andb_prop in H. destruct H as (H1 & H2). apply Nat.leb_le in H1. apply Nat.ltb_lt in H2. exists s, (adj a s - (nScs + fa * nSfs)). split; [lia|]. split; lia.
    - intros (s & sf & Hs & Hf & E). exists s. split; [apply in_seq; lia|]. rewrite E. apply andb_true_intro. split; [apply Nat.leb_le; lia|apply Nat.ltb_lt; lia].
  Qed.
  Lemma atBnd_ok fa a : a < nScs -> atBnd nFas nSfs nScs t fa a = Ok (bndb fa a).
  Proof.
    intros Ha. unfold atBnd, bndb. destruct (for_ok (fun i b => b = existsb (fun s => (nScs + fa * nSfs <=? adj a s) && (adj a s <? nScs + (fa + 1) * nSfs)) (seq 0 i)) 0 nFas (fun s2 bnd => x <- rd2 t a s2 ;; Ok (if (nScs + fa * nSfs <=? x) && (x <? nScs + (fa + 1) * nSfs) then true else bnd)) false) as (s' & E & ->); [lia|reflexivity| |exact E].
    intros k b Hk ->. rewrite rd2_adj by lia. cbn [bind]. eexists. split; [reflexivity|]. rewrite seq_snoc, existsb_app. cbn [existsb Nat.add]. rewrite orb_false_r. destruct ((nScs + fa * nSfs <=? adj a k) && (adj a k <? nScs + (fa + 1) * nSfs)); [rewrite orb_true_r|rewrite orb_false_r]; reflexivity.
  Qed.
  Definition cand (fa a s : nat) : list nat := if (adj a s <? nScs) && (bndb fa (adj a s) && negb (a =? adj a s)) then [adj a s] else [].
  Definition cands (fa a : nat) : list nat := flat_map (cand fa a) (seq 0 nFas).
  Lemma stLocal_ok fa a : a < nScs -> stLocal nFas nSfs nScs t fa a = Ok (a :: cands fa a).
  Proof.
    intros Ha. unfold stLocal, cands. destruct (for_ok (fun i l => l = a :: flat_map (cand fa a) (seq 0 i)) 0 nFas (fun s1 scs => ad <- rd2 t a s1 ;; if nScs <=? ad then Ok scs else bnd <- atBnd nFas nSfs nScs t fa ad ;; Ok (if bnd && negb (a =? ad) then scs ++ [ad] else scs)) [a]) as (s' & E & ->); [lia|reflexivity| |exact E].
    intros k l Hk ->. rewrite rd2_adj by lia. cbn [bind]. rewrite seq_snoc, flat_map_app. cbn [flat_map Nat.add]. rewrite app_nil_r. assert (C : cand fa a k = if (adj a k <? nScs) && (bndb fa (adj a k) && negb (a =? adj a k)) then [adj a k] else []) by reflexivity. rewrite C. clear C. destruct (Nat.leb_spec nScs (adj a k)); destruct (Nat.ltb_spec (adj a k) nScs); try lia.
    - cbn [andb]. eexists. split; [reflexivity|]. now rewrite app_nil_r.
    - rewrite atBnd_ok by auto. cbn [bind]. eexists. split; [reflexivity|]. cbn [andb]. destruct (bndb fa (adj a k) && negb (a =? adj a k)); [reflexivity|]. now rewrite app_nil_r.
  Qed.
  Lemma cands_in fa a b : In b (cands fa a) <-> b < nScs /\ a <> b /\ touches fa b /\ exists s, s < nFas /\ adj a s = b.
  Proof.
    unfold cands. rewrite in_flat_map. split.
    - intros (s & Hs & H). apply in_seq in Hs. unfold cand in H. destruct (Nat.ltb_spec (adj a s) nScs); [|destruct H]. cbn [andb] in H. destruct (bndb fa (adj a s)) eqn:B; [|destruct H]. destruct (Nat.eqb_spec a (adj a s)); [destruct H|]. destruct H as [<-|[]]. apply bndb_ok in B. split; [auto|]. split; [auto|]. split; [auto|]. exists s. split; [lia|auto].
    - intros (Hb & N & T & s & Hs & <-). exists s. split; [apply in_seq; lia|]. unfold cand. destruct (Nat.ltb_spec (adj a s) nScs); [|lia]. apply bndb_ok in T. rewrite T. destruct (Nat.eqb_spec a (adj a s)); [congruence|]. left. reflexivity.
  Qed.
  Definition up (fa sf : nat) : list (nat * nat) := let a := adj (ghost fa sf) 0 in match cands fa a with b :: _ => if a <? b then [(a, b)] else [] | [] => [] end.
  Definition sts (fa : nat) : list (nat * nat) := flat_map (up fa) (seq 0 nSfs).

  Lemma send fa sf : fa < nFas -> sf < nSfs -> adj (ghost fa sf) 0 < nScs /\ touches fa (adj (ghost fa sf) 0).
  Proof. intros Hf Hs. destruct tab as (_ & _ & S & _). destruct (S fa sf Hf Hs) as (H & s & H1 & H2). split; [exact H|]. exists s, sf. auto. Qed.
  Lemma sts_in fa a b : fa < nFas -> In (a, b) (sts fa) <-> pair fa a b /\ a < b.
  Proof.
    intros Hf. unfold sts. rewrite in_flat_map. split.
    - intros (sf & Hs & H). apply in_seq in Hs. unfold up in H. destruct (send fa sf Hf ltac:(lia)) as (S1 & S2). set (x := adj (ghost fa sf) 0) in *. destruct (cands fa x) as [|y l] eqn:C; [destruct H|]. destruct (Nat.ltb_spec x y); [|destruct H]. destruct H as [E|[]]. injection E as <- <-.
      assert (I : In y (cands fa x)) by (rewrite C; left; auto). apply cands_in in I. split; [|auto]. unfold SuperCellSpec.pair. tauto.
    - intros (P & L). destruct P as (A & B & N & T & T' & AD). destruct T as (s & sf & Hs & Hsf & E). exists sf. split; [apply in_seq; lia|]. destruct tab as (_ & _ & _ & BK & _ & _ & SG). assert (X := BK fa sf a s Hf Hsf A Hs E). unfold up. rewrite X. assert (T : touches fa a) by (exists s, sf; auto).
      assert (I : In b (cands fa a)) by (apply cands_in; auto). destruct (cands fa a) as [|y l] eqn:C; [destruct I|]. assert (I' : In y (cands fa a)) by (rewrite C; left; auto). apply cands_in in I'. assert (y = b) by (apply (SG fa a); auto; unfold SuperCellSpec.pair; tauto). subst y. destruct (Nat.ltb_spec a b); [|lia]. left. reflexivity.
  Qed.
  Lemma pair_sym fa a b : pair fa a b -> pair fa b a.
  Proof. intros (A & B & N & T & T' & s & Hs & E). destruct tab as (_ & _ & _ & _ & _ & SY & _). subst b. destruct (SY a s A Hs B) as (s' & H1 & H2). split; [auto|]. split; [auto|]. split; [auto|]. split; [auto|]. split; [auto|]. eauto. Qed.
  Lemma nodup_app {A} (u v : list A) : NoDup u -> NoDup v -> (forall x, In x u -> ~ In x v) -> NoDup (u ++ v).
  Proof.
    induction u as [|x u IHu]; intros U V D; [exact V|]. inversion U; subst. cbn [app]. constructor; [intros Q; apply in_app_or in Q; destruct Q as [Q|Q]; auto; apply (D x); auto; left; auto|]. apply IHu; auto. intros y Hy. apply D. right; auto.
  Qed.
  Lemma sts_disjoint fa : fa < nFas -> NoDup (members (sts fa)).
  Proof.
    intros Hf. destruct tab as (_ & _ & _ & _ & INJ & _ & SG).
    assert (F : forall sf, sf < nSfs -> forall p, In p (up fa sf) -> fst p = adj (ghost fa sf) 0 /\ pair fa (fst p) (snd p) /\ fst p < snd p).
    { intros sf Hs p Hp. assert (In p (sts fa)) by (unfold sts; apply in_flat_map; exists sf; split; [apply in_seq; lia|auto]). destruct p as (a & b). apply sts_in in H; auto. split; [|exact H]. unfold up in Hp. destruct (cands fa _) as [|y l]; [destruct Hp|]. destruct (_ <? y); [|destruct Hp]. destruct Hp as [E|[]]. injection E as <- _. reflexivity. }
    unfold sts, members. assert (X : forall l, NoDup l -> (forall sf, In sf l -> sf < nSfs) -> NoDup (flat_map (fun p => [fst p; snd p]) (flat_map (up fa) l))); [|apply X; [apply seq_NoDup|intros sf H; apply in_seq in H; lia]].
    induction l as [|sf l IH]; intros ND B; [constructor|]. inversion ND as [|? ? NI ND']; subst. cbn [flat_map]. rewrite flat_map_app. apply nodup_app; [|apply IH; auto; intros; apply B; right; auto|].
    - assert (Hs : sf < nSfs) by (apply B; left; auto). specialize (F sf Hs). unfold up in *. destruct (cands fa _) as [|y m]; [constructor|]. destruct (Nat.ltb_spec (adj (ghost fa sf) 0) y); [|constructor]. cbn [flat_map fst snd app]. constructor; [intros [Q|[]]; lia|]. constructor; [intros []|constructor].
    - intros x H1 H2. apply in_flat_map in H1. destruct H1 as (p & P1 & P2). apply in_flat_map in H2. destruct H2 as (q & Q1 & Q2). apply in_flat_map in Q1. destruct Q1 as (sf' & Q0 & Q1).
      destruct (F sf ltac:(apply B; left; auto) p P1) as (A1 & A2 & A3). destruct (F sf' ltac:(apply B; right; auto) q Q1) as (B1 & B2 & B3). assert (NE : fst p <> fst q). { intros E. rewrite A1, B1 in E. apply INJ in E; auto; [subst; auto|apply B; left; auto|apply B; right; auto]. }
      destruct P2 as [<-|[<-|[]]], Q2 as [Q|[Q|[]]].
      + auto.
      + assert (E := SG fa (fst p) (snd p) (fst q) Hf A2 ltac:(rewrite <- Q; apply pair_sym; auto)). lia.
      + assert (E := SG fa (fst q) (snd q) (fst p) Hf B2 ltac:(rewrite Q; apply pair_sym; auto)). lia.
      + apply NE. apply (SG fa (snd p)); auto; [apply pair_sym; auto|rewrite <- Q; apply pair_sym; auto].
  Qed.
  Lemma faSt1_ok nSt fa col : fa < nFas -> nSt <= length col -> faSt1 nFas nSfs nScs nSt t fa col = if length (sts fa) <=? nSt then Ok (length (sts fa), sts fa ++ skipn (length (sts fa)) col) else Er Echeck.
  Proof.
    intros Hf HL. unfold faSt1, for_. rewrite for_fold, Nat.sub_0_r. unfold sts.
    set (body := fun sf (st : nat * list (nat * nat)) => _). assert (X : forall l dn rest, (forall sf, In sf l -> sf < nSfs) -> length dn <= nSt -> nSt <= length dn + length rest -> foldR body l (length dn, dn ++ rest) = if length dn + length (flat_map (up fa) l) <=? nSt then Ok (length dn + length (flat_map (up fa) l), dn ++ flat_map (up fa) l ++ skipn (length (flat_map (up fa) l)) rest) else Er Echeck).
    { induction l as [|sf l IH]; intros dn rest B H0 H.
      - cbn [foldR flat_map length skipn app]. rewrite Nat.add_0_r. destruct (Nat.leb_spec (length dn) nSt); [reflexivity|lia].
      - cbn [foldR flat_map]. destruct (send fa sf Hf ltac:(apply B; left; auto)) as (S1 & S2). unfold body at 1. change (nScs + fa * nSfs + sf) with (ghost fa sf). rewrite rd2_adj by (unfold SuperCellSpec.ghost; assert (sf < nSfs) by (apply B; left; auto); nia). cbn [bind]. rewrite stLocal_ok by auto. cbn [bind]. assert (U : up fa sf = match cands fa (adj (ghost fa sf) 0) with b :: _ => if adj (ghost fa sf) 0 <? b then [(adj (ghost fa sf) 0, b)] else [] | [] => [] end) by reflexivity. rewrite U. clear U. set (a := adj (ghost fa sf) 0) in *.
        assert (NUL : foldR body l (length dn, dn ++ rest) = (if length dn + length ([] ++ flat_map (up fa) l) <=? nSt then Ok (length dn + length ([] ++ flat_map (up fa) l), dn ++ ([] ++ flat_map (up fa) l) ++ skipn (length ([] ++ flat_map (up fa) l)) rest) else Er Echeck)) by (cbn [app]; apply IH; auto; intros; apply B; right; auto).
        destruct (cands fa a) as [|b m]; [cbn [bind]; exact NUL|]. destruct (a <? b) eqn:E; [|cbn [bind]; exact NUL]. cbn [fst snd].
        destruct (Nat.ltb_spec (length dn) nSt).
        + cbn [check bind]. destruct rest as [|r rest]; [cbn in H; lia|]. rewrite wr_ok by (rewrite app_length; cbn; lia). cbn [bind]. rewrite upd_app_cons. replace (dn ++ (a, b) :: rest) with ((dn ++ [(a, b)]) ++ rest) by (rewrite <- app_assoc; reflexivity). replace (S (length dn)) with (length (dn ++ [(a, b)])) by (rewrite app_length; cbn; lia).
          rewrite IH; [|intros; apply B; right; auto|rewrite app_length; cbn; lia|rewrite app_length; cbn in *; lia]. rewrite app_length. cbn [length app]. replace (length dn + 1 + length (flat_map (up fa) l)) with (length dn + S (length (flat_map (up fa) l))) by lia. cbn [skipn]. rewrite <- !app_assoc. reflexivity.
        + cbn [check bind]. cbn [app length]. destruct (Nat.leb_spec (length dn + S (length (flat_map (up fa) l))) nSt); [lia|reflexivity]. }
    specialize (X (seq 0 nSfs) [] col). cbn [length app] in X. rewrite X; [reflexivity|intros sf H; apply in_seq in H; lia|lia|lia].
  Qed.
End Stencils.

(** ** Averages *)
Lemma plane_rd nScs nCrs d sc cr : plane nScs nCrs d -> sc < nScs -> cr < nCrs -> rd2 d sc cr = Ok (dof d sc cr).
Proof. intros (L & R) Hs Hc. unfold rd2. rewrite (rd_ok d sc []) by lia. cbn [bind]. apply rd_ok. rewrite (R (nth sc d [])); auto. apply nth_In. lia. Qed.
Lemma in_upd {A} (l : list A) i v x : In x (upd l i v) -> x = v \/ In x l.
Proof. revert i. induction l as [|y l IH]; intros [|i] H; cbn in *; auto; destruct H as [H|H]; auto. destruct (IH i H); auto. Qed.
Lemma plane_wr nScs nCrs d a cr v : plane nScs nCrs d -> a < nScs -> cr < nCrs -> let r := nth a d [] in rd d a = Ok r /\ wr r cr v = Ok (upd r cr v) /\ wr d a (upd r cr v) = Ok (upd d a (upd r cr v)) /\ plane nScs nCrs (upd d a (upd r cr v)) /\ forall sc c, dof (upd d a (upd r cr v)) sc c = if (sc =? a) && (c =? cr) then v else dof d sc c.
Proof.
  intros (L & R) Ha Hc. cbv zeta. assert (LR : length (nth a d []) = nCrs) by (apply R, nth_In; lia). split; [apply rd_ok; lia|]. split; [apply wr_ok; lia|]. split; [apply wr_ok; lia|]. split.
  - split; [now rewrite length_upd|]. intros r H. apply in_upd in H. destruct H as [->|H]; [now rewrite length_upd|auto].
  - intros sc c. unfold dof. destruct (Nat.eqb_spec sc a) as [->|N]; cbn [andb].
    + rewrite nth_upd_eq by lia. destruct (Nat.eqb_spec c cr) as [->|N]; [apply nth_upd_eq; lia|apply nth_upd_ne; auto].
    + rewrite nth_upd_ne by auto. reflexivity.
Qed.
Lemma average_ok nScs nCrs a b d : plane nScs nCrs d -> a < nScs -> b < nScs -> exists d', average nCrs a b d = Ok d' /\ plane nScs nCrs d' /\ forall sc cr, cr < nCrs -> dof d' sc cr = if (sc =? a) || (sc =? b) then ((1 # 2) * dof d a cr + (1 # 2) * dof d b cr)%Q else dof d sc cr.
Proof.
  intros P Ha Hb. unfold average. destruct (mapM_seq (fun cr => x <- rd2 d a cr ;; y <- rd2 d b cr ;; Ok ((1 # 2) * x + (1 # 2) * y)%Q) nCrs) as (ave & E & L & N); [intros cr Hc; rewrite !(plane_rd nScs nCrs) by auto; cbn [bind]; eauto|]. rewrite E. cbn [bind].
  assert (NA : forall cr, cr < nCrs -> rd ave cr = Ok ((1 # 2) * dof d a cr + (1 # 2) * dof d b cr)%Q) by (intros cr Hc; destruct (N cr Hc) as (v & V1 & V2); rewrite !(plane_rd nScs nCrs) in V2 by auto; cbn [bind] in V2; injection V2 as <-; apply rd_some; auto).
  destruct (for_ok (fun i d' => plane nScs nCrs d' /\ forall sc cr, dof d' sc cr = if ((sc =? a) || (sc =? b)) && (cr <? i) then ((1 # 2) * dof d a cr + (1 # 2) * dof d b cr)%Q else dof d sc cr) 0 nCrs (fun cr d => v <- rd ave cr ;; r <- rd d a ;; r <- wr r cr v ;; d <- wr d a r ;; r <- rd d b ;; r <- wr r cr v ;; wr d b r) d) as (d' & ED & PD & D); [lia| | |].
  - split; [exact P|]. intros sc cr. rewrite andb_false_r. reflexivity.
  - intros k d1 Hk (P1 & D1). rewrite NA by lia. cbn [bind]. set (v := ((1 # 2) * dof d a k + (1 # 2) * dof d b k)%Q). destruct (plane_wr nScs nCrs d1 a k v P1 Ha ltac:(lia)) as (A1 & A2 & A3 & A4 & A5). rewrite A1. cbn [bind]. rewrite A2. cbn [bind]. rewrite A3. cbn [bind].
    set (d2 := upd d1 a (upd (nth a d1 []) k v)) in *. destruct (plane_wr nScs nCrs d2 b k v A4 Hb ltac:(lia)) as (B1 & B2 & B3 & B4 & B5). rewrite B1. cbn [bind]. rewrite B2. cbn [bind]. eexists. split; [exact B3|]. split; [exact B4|]. intros sc cr. rewrite B5, A5, D1.
    destruct (Nat.eqb_spec sc a), (Nat.eqb_spec sc b), (Nat.eqb_spec cr k), (Nat.ltb_spec cr k), (Nat.ltb_spec cr (S k)); cbn [andb orb]; subst; try lia; reflexivity.
  - exists d'. split; [exact ED|]. split; [exact PD|]. intros sc cr Hc. rewrite D. destruct (Nat.ltb_spec cr nCrs); [|lia]. rewrite andb_true_r. reflexivity.
Qed.

Definition avg (nCrs : nat) (p : nat * nat) (d : list (list Q)) : res (list (list Q)) := average nCrs (fst p) (snd p) d.
Definition inRange (nScs : nat) (p : nat * nat) : Prop := fst p < nScs /\ snd p < nScs.
Lemma fold_ok nScs nCrs : forall l d, plane nScs nCrs d -> (forall p, In p l -> inRange nScs p) -> exists d', foldR (avg nCrs) l d = Ok d' /\ plane nScs nCrs d'.
Proof.
  induction l as [|p l IH]; intros d P R; [exists d; auto|]. destruct (R p (or_introl eq_refl)) as (A & B). destruct (average_ok nScs nCrs _ _ d P A B) as (d1 & E & P1 & _). cbn [foldR]. unfold avg at 1. rewrite E. cbn [bind]. apply IH; auto. intros; apply R; right; auto.
Qed.
Lemma apply_ok nScs nSt nQts nCrs col dofs : length dofs = nQts -> (forall d, In d dofs -> plane nScs nCrs d) -> nSt <= length col -> (forall p, In p (firstn nSt col) -> inRange nScs p) ->
  exists dofs', applyFa true nSt nQts nCrs col dofs = Ok dofs' /\ length dofs' = nQts /\ forall qt, qt < nQts -> plane nScs nCrs (nth qt dofs' []) /\ foldR (avg nCrs) (firstn nSt col) (nth qt dofs []) = Ok (nth qt dofs' []).
Proof.
  intros L P HC R. unfold applyFa.
  assert (P0 : forall qt, qt < nQts -> plane nScs nCrs (nth qt dofs [])) by (intros qt Hq; apply P, nth_In; lia).
  destruct (for_ok (fun i ds => length ds = nQts /\ forall qt, qt < nQts -> plane nScs nCrs (nth qt ds []) /\ foldR (avg nCrs) (firstn i col) (nth qt dofs []) = Ok (nth qt ds [])) 0 nSt (fun st dofs => for_ 0 nQts (fun qt dofs => p <- rd col st ;; d <- rd dofs qt ;; d <- average nCrs (fst p) (snd p) d ;; wr dofs qt d) dofs) dofs) as (ds & E & I); [lia|split; [exact L|intros qt Hq; split; [auto|reflexivity]]| |exists ds; split; [exact E|exact I]].
  intros st ds Hst (LS & IS). destruct (nth_error col st) as [p|] eqn:EP; [|apply nth_error_None in EP; lia]. assert (RP : inRange nScs p). { apply R. apply nth_error_In with st. rewrite nth_first by lia. exact EP. } destruct RP as (RA & RB).
  assert (FS : forall qt d d1, foldR (avg nCrs) (firstn st col) (nth qt dofs []) = Ok d -> average nCrs (fst p) (snd p) d = Ok d1 -> foldR (avg nCrs) (firstn (S st) col) (nth qt dofs []) = Ok d1) by (intros qt d d1 E1 E2; rewrite (firstn_S_snoc _ _ _ EP), fold_app, E1; cbn [bind foldR]; unfold avg; rewrite E2; reflexivity).
  destruct (for_ok (fun j d' => length d' = nQts /\ forall qt, qt < nQts -> plane nScs nCrs (nth qt d' []) /\ if qt <? j then foldR (avg nCrs) (firstn (S st) col) (nth qt dofs []) = Ok (nth qt d' []) else nth qt d' [] = nth qt ds []) 0 nQts (fun qt dofs => p <- rd col st ;; d <- rd dofs qt ;; d <- average nCrs (fst p) (snd p) d ;; wr dofs qt d) ds) as (ds' & E' & L' & I'); [lia| | |].
  - split; [exact LS|]. intros qt Hq. split; [apply IS; auto|]. reflexivity.
  - intros q d1 Hq (L1 & I1). rewrite (rd_some _ _ _ EP). cbn [bind]. rewrite (rd_ok d1 q []) by lia. cbn [bind]. destruct (I1 q ltac:(lia)) as (Q1 & Q2). rewrite Nat.ltb_irrefl in Q2. destruct (average_ok nScs nCrs _ _ _ Q1 RA RB) as (d2 & EA & PA & _). rewrite EA. cbn [bind]. rewrite wr_ok by lia. eexists. split; [reflexivity|]. split; [now rewrite length_upd|].
    intros qt Hqt. destruct (Nat.eq_dec qt q) as [->|N].
    + rewrite nth_upd_eq by lia. split; [exact PA|]. destruct (Nat.ltb_spec q (S q)); [|lia]. apply (FS q (nth q d1 [])); auto. rewrite Q2. apply IS. lia.
    + rewrite nth_upd_ne by auto. destruct (I1 qt Hqt) as (Q3 & Q4). split; [exact Q3|]. destruct (Nat.ltb_spec qt q), (Nat.ltb_spec qt (S q)); try lia; auto.
  - exists ds'. split; [exact E'|]. split; [exact L'|]. intros qt Hq. destruct (I' qt Hq) as (Q1 & Q2). destruct (Nat.ltb_spec qt nQts); [|lia]. auto.
Qed.

Lemma sumQ_ext n f g : (forall i, i < n -> (f i == g i)%Q) -> (sumQ n f == sumQ n g)%Q.
Proof. induction n as [|n IH]; intros H; cbn [sumQ]; [reflexivity|]. rewrite IH by (intros; apply H; lia). rewrite (H n) by lia. reflexivity. Qed.
Lemma sumQ_set n f a v : a < n -> (sumQ n (fun i => if i =? a then v else f i) == sumQ n f + (v - f a))%Q.
Proof.
  induction n as [|n IH]; intros H; [lia|]. cbn [sumQ]. destruct (Nat.eq_dec a n) as [->|N].
  - rewrite Nat.eqb_refl. rewrite (sumQ_ext n _ f) by (intros i Hi; destruct (Nat.eqb_spec i n); [lia|reflexivity]). ring.
  - rewrite IH by lia. destruct (Nat.eqb_spec n a); [lia|]. ring.
Qed.
Lemma fold_sum nScs nCrs cr : cr < nCrs -> forall l d d', plane nScs nCrs d -> (forall p, In p l -> inRange nScs p /\ fst p <> snd p) -> foldR (avg nCrs) l d = Ok d' -> (sumQ nScs (fun sc => dof d' sc cr) == sumQ nScs (fun sc => dof d sc cr))%Q.
Proof.
  intros Hc. induction l as [|(a & b) l IH]; intros d d' P R E; [injection E as <-; reflexivity|]. destruct (R (a, b) (or_introl eq_refl)) as ((A & B) & N). cbn [fst snd] in *. destruct (average_ok nScs nCrs a b d P A B) as (d1 & E1 & P1 & D1). cbn [foldR] in E. unfold avg at 1 in E. cbn [fst snd] in E. rewrite E1 in E. cbn [bind] in E.
  rewrite (IH d1 d' P1); auto; [|intros; apply R; right; auto]. set (v := ((1 # 2) * dof d a cr + (1 # 2) * dof d b cr)%Q).
  rewrite (sumQ_ext nScs _ (fun i => if i =? a then v else (fun i => if i =? b then v else dof d i cr) i)) by (intros i Hi; rewrite D1 by auto; fold v; destruct (i =? a), (i =? b); reflexivity).
  rewrite sumQ_set by auto. rewrite sumQ_set by auto. destruct (Nat.eqb_spec a b); [lia|]. unfold v. ring.
Qed.
Lemma fold_bounds nScs nCrs cr lo hi : cr < nCrs -> forall l d d', plane nScs nCrs d -> (forall p, In p l -> inRange nScs p) -> (forall sc, sc < nScs -> (lo <= dof d sc cr <= hi)%Q) -> foldR (avg nCrs) l d = Ok d' -> forall sc, sc < nScs -> (lo <= dof d' sc cr <= hi)%Q.
Proof.
  intros Hc. induction l as [|(a & b) l IH]; intros d d' P R H E; [injection E as <-; auto|]. destruct (R (a, b) (or_introl eq_refl)) as (A & B). cbn [fst snd] in *. destruct (average_ok nScs nCrs a b d P A B) as (d1 & E1 & P1 & D1). cbn [foldR] in E. unfold avg at 1 in E. cbn [fst snd] in E. rewrite E1 in E. cbn [bind] in E.
  apply (IH d1); auto; [intros; apply R; right; auto|]. intros sc Hs. rewrite D1 by auto. destruct ((sc =? a) || (sc =? b)); [|auto]. assert (X := H a A). assert (Y := H b B). lra.
Qed.
Lemma fold_avg nScs nCrs cr : cr < nCrs -> forall l d d', plane nScs nCrs d -> (forall p, In p l -> inRange nScs p) -> NoDup (members l) -> foldR (avg nCrs) l d = Ok d' ->
  (forall a b, In (a, b) l -> dof d' a cr = ((1 # 2) * dof d a cr + (1 # 2) * dof d b cr)%Q /\ dof d' b cr = dof d' a cr) /\ forall sc, ~ In sc (members l) -> dof d' sc cr = dof d sc cr.
Proof.
  intros Hc. induction l as [|(a & b) l IH]; intros d d' P R ND E; [injection E as <-; split; [intros a b []|auto]|]. destruct (R (a, b) (or_introl eq_refl)) as (A & B). cbn [fst snd] in *. destruct (average_ok nScs nCrs a b d P A B) as (d1 & E1 & P1 & D1). cbn [foldR] in E. unfold avg at 1 in E. cbn [fst snd] in E. rewrite E1 in E. cbn [bind] in E.
  unfold members in ND. cbn [flat_map fst snd app] in ND. inversion ND as [|? ? N1 ND1]; subst. inversion ND1 as [|? ? N2 ND2]; subst. fold (members l) in N1, N2, ND2. destruct (IH d1 d' P1 ltac:(intros; apply R; right; auto) ND2 E) as (I1 & I2).
  assert (N1' : ~ In a (members l)) by (intros Q; apply N1; right; exact Q). split.
  - intros x y [Q|H].
    + injection Q as <- <-. rewrite !I2 by auto. rewrite !D1 by auto. rewrite !Nat.eqb_refl. cbn [orb]. rewrite orb_true_r. split; reflexivity.
    + destruct (I1 x y H) as (J1 & J2). split; [|exact J2]. assert (MX : In x (members l)) by (apply in_flat_map; exists (x, y); split; [auto|left; auto]). assert (MY : In y (members l)) by (apply in_flat_map; exists (x, y); split; [auto|right; left; auto]).
      rewrite J1, !D1 by auto. destruct (Nat.eqb_spec x a), (Nat.eqb_spec x b), (Nat.eqb_spec y a), (Nat.eqb_spec y b); subst; try tauto; reflexivity.
  - intros sc H. unfold members in H. cbn [flat_map fst snd app] in H. fold (members l) in H. rewrite I2 by (intros Q; apply H; right; right; exact Q). rewrite D1 by auto. destruct (Nat.eqb_spec sc a); [exfalso; apply H; left; auto|]. destruct (Nat.eqb_spec sc b); [exfalso; apply H; right; left; auto|]. reflexivity.
Qed.
