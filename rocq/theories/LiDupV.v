(** Proofs about [LiDup]. *)
From Verif Require Import Util LiDup LiDupSpec.
From Verif Require ScInitV.
From Coq Require Import List Arith Bool Lia Sorted.

Lemma clear_ok none nFa n o : rowsOf n nFa o -> exists o1, clear none nFa n o = Ok o1 /\ length o1 = n /\ forall i r, nth_error o1 i = Some r -> r = repeat none nFa.
Proof.
  intros (L & R). unfold clear.
  loop (fun li (s : list (list nat)) => rowsOf n nFa s /\ forall i r, i < li -> nth_error s i = Some r -> r = repeat none nFa) as s E H.
  - lia.
  - split; [split; auto|]. intros; lia.
  - intros li s Hli ((Ls & Rs) & D).
    loop (fun k (t : list (list nat)) => rowsOf n nFa t /\ (forall i r, i < li -> nth_error t i = Some r -> r = repeat none nFa) /\ forall r, nth_error t li = Some r -> firstn k r = repeat none k) as t E H.
    + lia.
    + split; [split; auto|]. split; auto.
    + intros fa t Hfa ((Lt & Rt) & D1 & D2). destruct (nth_error t li) as [r|] eqn:Er; [|apply nth_error_None in Er; lia].
      assert (Lr := Rt r (nth_error_In _ _ Er)). rewrite (rd_some _ _ _ Er). cbn [bind]. rewrite wr_ok by lia. cbn [bind]. rewrite wr_ok by lia. eexists. split; [reflexivity|].
      specialize (D2 r eq_refl). split; [split|split].
      * now rewrite length_upd.
      * intros r' Hr'. apply In_nth_error in Hr'. destruct Hr' as (j & Hj). destruct (Nat.eq_dec li j) as [<-|N]; [rewrite nth_error_upd_eq in Hj by lia; injection Hj as <-; now rewrite length_upd|]. rewrite nth_error_upd_ne in Hj by auto. apply Rt. eapply nth_error_In; eauto.
      * intros i r' Hi Hr'. rewrite nth_error_upd_ne in Hr' by lia. eauto.
      * intros r' Hr'. rewrite nth_error_upd_eq in Hr' by lia. injection Hr' as <-. assert (Es : r = firstn fa r ++ skipn fa r) by (symmetry; apply firstn_skipn). assert (Lk : length (skipn fa r) = nFa - fa) by (rewrite skipn_length; lia).
        destruct (skipn fa r) as [|x q]; [cbn in Lk; lia|]. rewrite Es, D2. assert (Lp : length (repeat none fa) = fa) by apply repeat_length. rewrite upd_app_at by auto. replace (S fa) with (length (repeat none fa ++ [none])) by (rewrite app_length, Lp; cbn; lia).
        replace (repeat none fa ++ none :: q) with ((repeat none fa ++ [none]) ++ q) by (rewrite <- app_assoc; reflexivity). rewrite firstn_app, Nat.sub_diag, firstn_all, firstn_O, app_nil_r. rewrite app_length, Lp. cbn [length]. now rewrite repeat_app.
    + destruct H as (H1 & H2 & H3). exists t. split; [reflexivity|]. split; [exact H1|]. intros i r Hi Hr. destruct (Nat.eq_dec i li) as [->|N]; [|apply (H2 i); auto; lia]. rewrite <- (H3 r Hr). symmetry. apply firstn_all2. destruct H1 as (_ & H1). rewrite (H1 r); [lia|]. eapply nth_error_In; eauto.
  - exists s. split; [reflexivity|]. destruct H as ((Ls & _) & D). split; [exact Ls|]. intros i r Hr. apply (D i r); auto. rewrite <- Ls. apply nth_error_Some. congruence.
Qed.

Lemma place_ok none nFa l1 l2 o ds : nth_error o l2 = Some (ds ++ repeat none (nFa - length ds)) -> length ds <= nFa -> 0 < nFa -> ~ In none ds ->
  place none nFa l1 l2 o = if length ds <? nFa then Ok (upd o l2 ((ds ++ [l1]) ++ repeat none (nFa - length (ds ++ [l1])))) else Er Echeck.
Proof.
  intros Ho Hd Hn Nd. unfold place, forb. rewrite Nat.sub_0_r.
  match goal with |- context [forb_n nFa 0 ?b o] => assert (G : forall n i, i + n = nFa -> 0 < n -> i <= length ds -> forb_n n i b o = if length ds <? nFa then Ok (upd o l2 ((ds ++ [l1]) ++ repeat none (nFa - length (ds ++ [l1])))) else Er Echeck) end; [|apply G; lia].
  induction n as [|n IH]; intros i Hi Hp Hle; [lia|]. cbn [forb_n]. rewrite (rd_some _ _ _ Ho). cbn [bind].
  destruct (Nat.eq_dec i (length ds)) as [->|Ne].
  - assert (Er : nFa - length ds = S n) by lia. rewrite Er. cbn [repeat]. rewrite (rd_some _ _ none) by (rewrite nth_error_app2, Nat.sub_diag by lia; reflexivity). cbn [bind]. rewrite Nat.eqb_refl. rewrite wr_ok by (rewrite app_length; cbn; lia). cbn [bind].
    rewrite wr_ok by (apply nth_error_Some; congruence). cbn [bind]. rewrite (proj2 (Nat.ltb_lt _ _)) by lia. rewrite upd_app_cons. do 2 f_equal. rewrite <- app_assoc. cbn [app]. do 3 f_equal. rewrite app_length. cbn. lia.
  - destruct (nth_error ds i) as [x|] eqn:Ex; [|apply nth_error_None in Ex; lia]. rewrite (rd_some _ _ x) by (rewrite nth_error_app1 by lia; exact Ex). cbn [bind].
    assert (Nx : x <> none) by (intros ->; apply Nd; eapply nth_error_In; eauto). rewrite (proj2 (Nat.eqb_neq _ _) Nx).
    destruct (Nat.eqb_spec i (nFa - 1)) as [->|Nl]; cbn [negb check bind]; [destruct (Nat.ltb_spec (length ds) nFa); [lia|reflexivity]|]. apply IH; lia.
Qed.

Lemma ss_snoc ds x : StronglySorted lt ds -> (forall y, In y ds -> y < x) -> StronglySorted lt (ds ++ [x]).
Proof.
  induction 1 as [|a l S IH F]; intros H; cbn; [repeat constructor|]. constructor; [apply IH; intros; apply H; now right|]. apply Forall_app. split; [exact F|]. constructor; [apply H; now left|constructor].
Qed.
Lemma ss_nodup ds : StronglySorted lt ds -> NoDup ds.
Proof. induction 1 as [|a l S IH F]; constructor; auto. intros H. rewrite Forall_forall in F. specialize (F a H). lia. Qed.

Lemma elem_fun a b l e e' : elemOf a b l e -> elemOf a b l e' -> e = e'.
Proof. intros (p & H1 & H2) (q & H3 & H4). congruence. Qed.

Section Links.
  Variable (none nFa lo size n : nat) (liLp lpEl daMe meDa : list nat).
  Hypothesis (Hn : 0 < nFa) (Hnone : lo + size <= none) (Hsz : lo + size <= n) (M : mapped lo (lo + size) liLp lpEl daMe meDa).
  Notation dup := (dupOf lo (lo + size) liLp lpEl daMe meDa).
  Notation crowd := (crowded lo (lo + size) liLp lpEl daMe meDa nFa).
  Definition Rw (k l2 : nat) (row : list nat) : Prop := exists ds, row = ds ++ repeat none (nFa - length ds) /\ length ds <= nFa /\ StronglySorted lt ds /\ forall x, In x ds <-> x < k /\ dup x l2.

  Lemma Rw_skip k l2 row : ~ dup k l2 -> Rw k l2 row -> Rw (k + 1) l2 row.
  Proof.
    intros N (ds & E & L & S & I). exists ds. repeat (split; [assumption|]). intros x. rewrite I. split; intros (H & D); (split; [|exact D]); [lia|]. destruct (Nat.eq_dec x k) as [->|]; [contradiction|lia].
  Qed.

  Lemma links_ok o : length o = n -> (forall i r, nth_error o i = Some r -> r = repeat none nFa) ->
    (exists o', links none nFa lo size liLp lpEl daMe meDa o = Ok o' /\ length o' = n /\ forall l2 row, nth_error o' l2 = Some row -> Rw (lo + size) l2 row) \/
    (links none nFa lo size liLp lpEl daMe meDa o = Er Echeck /\ ~ ~ crowd).
  Proof.
    intros Lo Z. unfold links.
    apply (ScInitV.for_either (fun k (o : list (list nat)) => length o = n /\ forall l2 row, nth_error o l2 = Some row -> Rw k l2 row) (~ crowd)); [lia| |].
    - split; [exact Lo|]. intros l2 row Hr. exists []. cbn. rewrite Nat.sub_0_r. split; [eauto|]. split; [lia|]. split; [constructor|]. intros x. split; [intros []|]. intros (H & (H1 & _)). lia.
    - clear o Lo Z. intros l1 o H1 (Lo & R). destruct (M l1 H1) as (e & d & (lp & E1 & E2) & (me & E3 & E4)).
      rewrite (rd_some _ _ _ E1). cbn [bind]. rewrite (rd_some _ _ _ E2). cbn [bind]. rewrite (rd_some _ _ _ E3). cbn [bind]. rewrite (rd_some _ _ _ E4). cbn [bind].
      assert (De : elemOf liLp lpEl l1 e) by (exists lp; auto). assert (Dd : dominant daMe meDa e d) by (exists me; auto).
      assert (Du : forall l2, dup l1 l2 -> d <> e /\ elemOf liLp lpEl l2 d). { intros l2 (_ & _ & e' & d' & F1 & (me' & F2 & F3) & F4 & F5). assert (e' = e) by (eapply elem_fun; eauto). subst e'. assert (d' = d) by congruence. subst d'. auto. }
      destruct (Nat.eqb_spec d e) as [Eq|Ne]; cbn [negb].
      { left. exists o. split; [reflexivity|]. split; [exact Lo|]. intros l2 row Hr. apply Rw_skip; auto. intros D. now apply (proj1 (Du _ D)). }
      match goal with |- context [for_ lo (lo + size) ?b o] => destruct (ScInitV.for_either (fun k (o : list (list nat)) => length o = n /\ forall l2 row, nth_error o l2 = Some row -> (l2 < k -> Rw (l1 + 1) l2 row) /\ (k <= l2 -> Rw l1 l2 row)) (~ crowd) lo (lo + size) b o) as [(o' & E & Lo' & R')|(E & NG)] end.
      + lia.
      + split; [exact Lo|]. intros l2 row Hr. split; [|auto]. intros Hl. apply Rw_skip; auto. intros (_ & D & _). lia.
      + clear o Lo R. intros l2 o H2 (Lo & R). destruct (M l2 H2) as (e2 & _ & (lp2 & F1 & F2) & _). rewrite (rd_some _ _ _ F1). cbn [bind]. rewrite (rd_some _ _ _ F2). cbn [bind].
        assert (De2 : elemOf liLp lpEl l2 e2) by (exists lp2; auto). destruct (nth_error o l2) as [row|] eqn:Er; [|apply nth_error_None in Er; lia]. destruct (proj2 (R l2 row Er) (le_n _)) as (ds & -> & Ld & Sd & Id).
        destruct (Nat.eqb_spec e2 d) as [->|Nd].
        * assert (D12 : dup l1 l2) by (split; [lia|split; [lia|exists e, d; auto]]).
          rewrite (place_ok _ _ l1 l2 o ds Er Ld Hn) by (intros Hin; apply Id in Hin; destruct Hin as (_ & (Hin & _)); lia).
          destruct (Nat.ltb_spec (length ds) nFa) as [Hlt|Hge].
          -- left. eexists. split; [reflexivity|]. split; [now rewrite length_upd|]. intros l row Hr. destruct (Nat.eq_dec l2 l) as [<-|Nl].
             ++ rewrite nth_error_upd_eq in Hr by lia. injection Hr as <-. split; [intros _|lia]. exists (ds ++ [l1]). split; [reflexivity|]. split; [rewrite app_length; cbn; lia|]. split; [apply ss_snoc; auto; intros y Hy; now apply Id|].
                intros x. rewrite in_app_iff, Id. cbn. split; [intros [(Hx & D)|[<-|[]]]; (split; [lia|auto])|]. intros (Hx & D). destruct (Nat.eq_dec l1 x); [auto|left; split; [lia|auto]].
             ++ rewrite nth_error_upd_ne in Hr by auto. destruct (R l row Hr) as (R1 & R2). split; intros Hl; [apply R1; lia|apply R2; lia].
          -- right. split; [reflexivity|]. intros NC. apply NC. exists l2, (ds ++ [l1]). split; [apply ss_nodup, ss_snoc; auto; intros y Hy; now apply Id|]. split; [rewrite app_length; cbn; lia|]. intros x Hx. apply in_app_iff in Hx. destruct Hx as [Hx|[<-|[]]]; [now apply Id|auto].
        * left. exists o. split; [reflexivity|]. split; [exact Lo|]. intros l row Hr. destruct (R l row Hr) as (R1 & R2). split; intros Hl; [|apply R2; lia]. destruct (Nat.eq_dec l l2) as [->|]; [|apply R1; lia]. apply Rw_skip; [|apply R2; lia]. intros D. apply Nd. eapply elem_fun; [exact De2|]. now apply Du.
      + left. exists o'. split; [exact E|]. split; [exact Lo'|]. intros l2 row Hr. destruct (R' l2 row Hr) as (R1 & R2). destruct (Nat.lt_ge_cases l2 (lo + size)) as [Hl|Hl]; [auto|]. apply Rw_skip; [|auto]. intros (_ & D & _). lia.
      + right. auto.
  Qed.
End Links.
