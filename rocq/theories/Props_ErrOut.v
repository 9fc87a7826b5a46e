(** C107: output of error norms. *)
From Verif Require Import Util ErrOut ErrOutSpec.
From Coq Require Import String List Arith Bool Lia.
Open Scope nat_scope.

Lemma for_kids V N n t k0 (g : nat -> xml V) body : (forall i x, i < N -> body i x = Ok (appendKid V x (g i))) -> for_ 0 N body (El V n t k0) = Ok (El V n t (k0 ++ map g (seq 0 N))).
Proof.
  intros H. unfold for_. rewrite Nat.sub_0_r. assert (G : forall M i k, i + M = N -> for_n M i body (El V n t k) = Ok (El V n t (k ++ map g (seq i M)))); [|now apply G].
  induction M as [|M IH]; intros i k Hi; cbn [for_n seq map]; [now rewrite app_nil_r|]. rewrite H by lia. cbn [bind appendKid]. rewrite IH by lia. now rewrite <- app_assoc.
Qed.
Lemma for_lines {A} N (f : nat -> list A) body o : (forall i o, i < N -> body i o = Ok (o ++ f i)) -> for_ 0 N body o = Ok (o ++ flat_map f (seq 0 N)).
Proof.
  intros H. unfold for_. rewrite Nat.sub_0_r. assert (G : forall M i o, i + M = N -> for_n M i body o = Ok (o ++ flat_map f (seq i M))); [|now apply G].
  induction M as [|M IH]; intros i k Hi; cbn [for_n seq flat_map]; [now rewrite app_nil_r|]. rewrite H by lia. cbn [bind]. rewrite IH by lia. now rewrite <- app_assoc.
Qed.

Section S.
  Variable (V : Type) (nQ nC : nat) (e : list (list (list V))).
  Hypothesis (S3 : shape3 3 nQ nC e).
  Lemma at_ex i j k : i < 3 -> j < nQ -> k < nC -> exists v, normAt e i j k v.
  Proof.
    destruct S3 as (L & H). intros Hi Hj Hk. destruct (nth_error e i) as [x|] eqn:Ex; [|apply nth_error_None in Ex; lia]. destruct (H x (nth_error_In _ _ Ex)) as (Lx & Hy).
    destruct (nth_error x j) as [y|] eqn:Ey; [|apply nth_error_None in Ey; lia]. assert (Ly := Hy y (nth_error_In _ _ Ey)). destruct (nth_error y k) as [v|] eqn:Ev; [|apply nth_error_None in Ev; lia]. exists v, x, y. auto.
  Qed.
  Lemma at_lt i j k v : normAt e i j k v -> i < 3 /\ j < nQ /\ k < nC.
  Proof.
    destruct S3 as (L & H). intros (x & y & E1 & E2 & E3). destruct (H x (nth_error_In _ _ E1)) as (Lx & Hy). assert (Ly := Hy y (nth_error_In _ _ E2)). rewrite <- L, <- Lx, <- Ly. repeat split; apply nth_error_Some; congruence.
  Qed.
  Lemma at_rd i j k v : normAt e i j k v -> rdE V e i j k = Ok v.
  Proof. intros (x & y & E1 & E2 & E3). unfold rdE. rewrite (rd_some _ _ _ E1). cbn [bind]. rewrite (rd_some _ _ _ E2). cbn [bind]. now apply rd_some. Qed.
  Lemma at_fun i j k v w : normAt e i j k v -> normAt e i j k w -> v = w.
  Proof. intros A B. apply at_rd in A, B. congruence. Qed.
  (** the values as a list of at most one *)
  Definition val (i j k : nat) : option V := match rdE V e i j k with Ok v => Some v | _ => None end.
  Lemma val_at i j k v : normAt e i j k v -> val i j k = Some v. Proof. intros H. unfold val. now rewrite (at_rd _ _ _ _ H). Qed.

  Lemma doc_ok : writeXml V nQ nC 0 e = Ok (Some (El V "error_norms" None (map (fun i => El V (tag i) None (map (fun j => El V "q" None (map (fun k => El V "cfr" (val i j k) []) (seq 0 nC))) (seq 0 nQ))) (seq 0 3)))).
  Proof.
    unfold writeXml. cbn [Nat.eqb]. erewrite (for_kids V 3); [reflexivity|]. intros i x Hi. cbn beta. erewrite (for_kids V nQ); [reflexivity|]. intros j y Hj. cbn beta. erewrite (for_kids V nC); [reflexivity|]. intros k z Hk. cbn beta.
    destruct (at_ex i j k Hi Hj Hk) as (v & Hv). rewrite (at_rd _ _ _ _ Hv), (val_at _ _ _ _ Hv). reflexivity.
  Qed.
  Lemma print_ok root : print V nQ nC root e = Ok (flat_map (fun i => flat_map (fun j => flat_map (fun k => if root then match val i j k with Some v => [(label i, j, k, v)] | None => [] end else []) (seq 0 nC)) (seq 0 nQ)) (seq 0 3)).
  Proof.
    unfold print. erewrite (for_lines 3); [rewrite app_nil_l; reflexivity|]. intros i o Hi. cbn beta. apply for_lines. intros j o1 Hj. apply for_lines. intros k o2 Hk. destruct (at_ex i j k Hi Hj Hk) as (v & Hv). rewrite (val_at _ _ _ _ Hv). apply at_rd in Hv.
    destruct i as [|[|[|i]]]; [| | |lia]; cbn [Nat.eqb]; rewrite Hv; cbn [bind]; destruct root; rewrite ?app_nil_r; reflexivity.
  Qed.
End S.

Lemma filter_all {A} (p : A -> bool) l : (forall x, In x l -> p x = true) -> filter p l = l.
Proof. induction l as [|a l IH]; intros H; cbn; [reflexivity|]. rewrite (H a) by now left. rewrite IH; [reflexivity|]. intros; apply H; now right. Qed.

Lemma flat_nil {A B} (f : A -> list B) l : (forall x, f x = []) -> flat_map f l = [].
Proof. intros H. induction l as [|a l IH]; cbn; [reflexivity|]. now rewrite H, IH. Qed.

(** the first rank saves a document from which exactly the norms are read, other ranks save nothing *)
Theorem C107_file V nQ nC (e : list (list (list V))) : shape3 3 nQ nC e ->
  (exists doc, writeXml V nQ nC 0 e = Ok (Some doc) /\ forall i j k v, i < 3 -> (readNorm doc (nth i ["l1"; "l2"; "linf"]%string ""%string) j k = Some v <-> normAt e i j k v)) /\
  forall rank, rank <> 0 -> writeXml V nQ nC rank e = Ok None.
Proof.
  intros S3. split; [|intros rank Hr; unfold writeXml; now rewrite (proj2 (Nat.eqb_neq _ _) Hr)].
  eexists. split; [now apply doc_ok|]. intros i j k v Hi.
  assert (R : forall d, d = El V "error_norms" None (map (fun i => El V (tag i) None (map (fun j => El V "q" None (map (fun k => El V "cfr" (val V e i j k) []) (seq 0 nC))) (seq 0 nQ))) (seq 0 3)) ->
    readNorm d (nth i ["l1"; "l2"; "linf"]%string ""%string) j k = if (j <? nQ) && (k <? nC) then val V e i j k else None).
  { intros d ->. unfold readNorm. cbn [nameOf]. rewrite String.eqb_refl.
    assert (K : nth_error (kidsOf (nth i ["l1"; "l2"; "linf"]%string ""%string) (El V "error_norms" None (map (fun i => El V (tag i) None (map (fun j => El V "q" None (map (fun k => El V "cfr" (val V e i j k) []) (seq 0 nC))) (seq 0 nQ))) (seq 0 3)))) 0 =
      Some (El V (tag i) None (map (fun j => El V "q" None (map (fun k => El V "cfr" (val V e i j k) []) (seq 0 nC))) (seq 0 nQ)))) by (destruct i as [|[|[|i]]]; [reflexivity|reflexivity|reflexivity|lia]).
    rewrite K. unfold kidsOf. rewrite filter_all by (intros x Hx; apply in_map_iff in Hx; destruct Hx as (? & <- & _); reflexivity). rewrite nth_error_map.
    destruct (Nat.ltb_spec j nQ) as [Hj|Hj]; cbn [andb]; [|rewrite (proj2 (nth_error_None _ _)) by (rewrite seq_length; lia); reflexivity].
    rewrite (nth_error_nth' _ 0) by (rewrite seq_length; lia). rewrite seq_nth by lia. cbn [option_map Nat.add]. rewrite filter_all by (intros x Hx; apply in_map_iff in Hx; destruct Hx as (? & <- & _); reflexivity). rewrite nth_error_map.
    destruct (Nat.ltb_spec k nC) as [Hk|Hk]; [|rewrite (proj2 (nth_error_None _ _)) by (rewrite seq_length; lia); reflexivity].
    rewrite (nth_error_nth' _ 0) by (rewrite seq_length; lia). rewrite seq_nth by lia. reflexivity. }
  rewrite (R _ eq_refl). split.
  - destruct (Nat.ltb_spec j nQ) as [Hj|]; cbn [andb]; [|discriminate]. destruct (Nat.ltb_spec k nC) as [Hk|]; [|discriminate]. intros Ev. destruct (at_ex V nQ nC e S3 i j k Hi Hj Hk) as (w & Hw). rewrite (val_at V e _ _ _ _ Hw) in Ev. injection Ev as <-. exact Hw.
  - intros Hv. destruct (at_lt V nQ nC e S3 _ _ _ _ Hv) as (_ & Hj & Hk). rewrite (proj2 (Nat.ltb_lt _ _) Hj), (proj2 (Nat.ltb_lt _ _) Hk). cbn [andb]. now apply val_at.
Qed.
Print Assumptions C107_file.

(** the first thread of the first rank prints exactly the norms, others print nothing *)
Theorem C107_print V nQ nC (e : list (list (list V))) : shape3 3 nQ nC e ->
  (exists ls, print V nQ nC true e = Ok ls /\ length ls = 3 * nQ * nC /\ forall i j k v, i < 3 -> (In (nth i ["L1"; "L2"; "Linf"]%string ""%string, j, k, v) ls <-> normAt e i j k v)) /\
  print V nQ nC false e = Ok [].
Proof.
  intros S3. split; [|rewrite (print_ok V nQ nC e S3 false); f_equal; apply flat_nil; intros i; apply flat_nil; intros k; apply flat_nil; reflexivity].
  eexists. split; [now apply print_ok|]. cbn match.
  assert (LF : forall (f : nat -> list (line V)) c N, (forall x, x < N -> length (f x) = c) -> length (flat_map f (seq 0 N)) = N * c).
  { intros f c N H. assert (G : forall M i, i + M = N -> length (flat_map f (seq i M)) = M * c); [|now apply G]. induction M as [|M IH]; intros i Hi; cbn [seq flat_map Nat.mul length]; [reflexivity|]. rewrite app_length, H, IH by lia. reflexivity. }
  split.
  - rewrite (LF _ (nQ * (nC * 1)) 3); [lia|]. intros i Hi. apply LF. intros j Hj. apply LF. intros k Hk. destruct (at_ex V nQ nC e S3 i j k Hi Hj Hk) as (v & Hv). now rewrite (val_at V e _ _ _ _ Hv).
  - intros i j k v Hi. rewrite in_flat_map. split.
    + intros (i' & Hi' & H). apply in_seq in Hi'. apply in_flat_map in H. destruct H as (j' & Hj' & H). apply in_seq in Hj'. apply in_flat_map in H. destruct H as (k' & Hk' & H). apply in_seq in Hk'.
      destruct (at_ex V nQ nC e S3 i' j' k' ltac:(lia) ltac:(lia) ltac:(lia)) as (w & Hw). rewrite (val_at V e _ _ _ _ Hw) in H. destruct H as [H|[]]. injection H as El <- <- <-. replace i with i'; [exact Hw|].
      destruct i as [|[|[|i]]]; [| | |lia]; (destruct i' as [|[|[|i']]]; [| | |lia]); cbn in El; congruence.
    + intros Hv. destruct (at_lt V nQ nC e S3 _ _ _ _ Hv) as (_ & Hj & Hk). exists i. split; [apply in_seq; lia|]. apply in_flat_map. exists j. split; [apply in_seq; lia|]. apply in_flat_map. exists k. split; [apply in_seq; lia|]. rewrite (val_at V e _ _ _ _ Hv). left. destruct i as [|[|[|i]]]; [reflexivity|reflexivity|reflexivity|lia].
Qed.
Print Assumptions C107_print.

(** the configured type selects the outputs; every other string disables them *)
Theorem C107_types V nQ nC (e : list (list (list V))) s rank root ls x : print V nQ nC root e = Ok ls -> writeXml V nQ nC rank e = Ok x ->
  write V nQ nC (typeOf s) rank root e = Ok (if String.eqb s "sout" || String.eqb s "sout_file" then ls else [], if String.eqb s "file" || String.eqb s "sout_file" then x else None) /\
  (outEnabled (typeOf s) = true <-> s = "sout"%string \/ s = "file"%string \/ s = "sout_file"%string).
Proof.
  intros Ep Ex. unfold write. rewrite Ep, Ex. unfold typeOf. destruct (String.eqb_spec s "sout") as [->|N1]; [split; [reflexivity|split; auto]|].
  destruct (String.eqb_spec s "file") as [->|N2]; [split; [reflexivity|split; auto]|].
  destruct (String.eqb_spec s "sout_file") as [->|N3]; [split; [reflexivity|split; auto]|].
  split; [reflexivity|]. split; [discriminate|]. intros [H|[H|H]]; contradiction.
Qed.
Print Assumptions C107_types.

(** non-vacuity: three norms of two quantities and one run *)
Definition exE : list (list (list nat)) := [[[1]; [2]]; [[3]; [4]]; [[5]; [6]]].
Example C107_ex_shape : shape3 3 2 1 exE.
Proof. split; [reflexivity|]. intros x [<-|[<-|[<-|[]]]]; (split; [reflexivity|]); intros y [<-|[<-|[]]]; reflexivity. Qed.
Example C107_ex_print : print nat 2 1 true exE = Ok [("L1", 0, 0, 1); ("L1", 1, 0, 2); ("L2", 0, 0, 3); ("L2", 1, 0, 4); ("Linf", 0, 0, 5); ("Linf", 1, 0, 6)]%string.
Proof. reflexivity. Qed.
Example C107_ex_file : exists doc, writeXml nat 2 1 0 exE = Ok (Some doc) /\ readNorm doc "linf" 1 0 = Some 6 /\ readNorm doc "l2" 0 0 = Some 3 /\ readNorm doc "l2" 0 1 = None.
Proof. eexists. split; [reflexivity|]. repeat split. Qed.
