(** Proofs about the sparse star matrices and the sparsity patterns of the kernels. *)
From Coq Require Import List Arith Bool Lia QArith Qcanon.
From Verif Require Import Util MatSparse ElGen Elastic ElSpec Props_Fwave Props_MatSparse.
Import ListNotations.
Open Scope nat_scope.

Notation starCsrEq := (starCsrE 0%Qc 1%Qc Qcplus Qcminus Qcmult Qcdiv Qcopp qcltb).
Notation starCsrAq := (starCsrA 0%Qc 1%Qc Qcplus Qcmult Qcdiv Qcopp qcltb).

(** the row pointers and column indices of a result *)
Definition pat (r : res (comp Qc)) := match r with Ok s => Some (cPtr s, cIdx s) | _ => None end.
Lemma patOk r p i : pat r = Some (p, i) -> exists v, r = Ok {| cVal := v; cPtr := p; cIdx := i |}.
Proof. destruct r as [[v q j]|]; cbn; intros E; [|discriminate]. injection E as -> ->. now exists v. Qed.

Definition idxE2 := [3; 4; 3; 4; 3; 4; 0; 2; 1; 2].
Definition idxE3 := [6; 7; 8; 6; 7; 8; 6; 7; 8; 6; 7; 7; 8; 6; 8; 0; 3; 5; 1; 3; 4; 2; 4; 5].
Lemma csrE2 : exists v, starCsrEq 2 = Ok {| cVal := v; cPtr := [0; 2; 4; 6; 8; 10]; cIdx := idxE2 |}.
Proof. apply patOk. vm_compute. reflexivity. Qed.
Lemma csrE3 : exists v, starCsrEq 3 = Ok {| cVal := v; cPtr := [0; 3; 6; 9; 11; 13; 15; 18; 21; 24]; cIdx := idxE3 |}.
Proof. apply patOk. vm_compute. reflexivity. Qed.
Definition idxA2 := [3; 4; 3; 4].
Definition idxA3 := [6; 7; 8; 6; 7; 7; 8; 6; 8].
Lemma csrA2 : exists v, starCsrAq 2 = Ok {| cVal := v; cPtr := [0; 1; 2; 4]; cIdx := idxA2 |}.
Proof. apply patOk. vm_compute. reflexivity. Qed.
Lemma csrA3 : exists v, starCsrAq 3 = Ok {| cVal := v; cPtr := [0; 1; 2; 3; 5; 7; 9]; cIdx := idxA3 |}.
Proof. apply patOk. vm_compute. reflexivity. Qed.

Section Sparse.
Context {T : Type}.
Variables (zero one : T) (add sub mul div : T -> T -> T) (opp : T -> T).

Ltac solv := cbv -[add sub mul div opp zero one];
  match goal with |- [] = _ \/ _ => right; split; reflexivity | |- _ => left; reflexivity end.
Lemma sparse2 s rho lam mu jac e : e < 2 -> starCsrEq 2 = Ok s ->
  represents zero 5 5 0 (nth e (starE2sp zero one add sub mul div opp rho lam mu jac) []) s (nth e (starE2 zero one add sub mul div opp rho lam mu jac) []).
Proof.
  intros He E. destruct csrE2 as (v & E2). rewrite E2 in E. injection E as <-. destruct e as [|[|]]; try lia; (split; [reflexivity|]; intros r c Hr Hc; cbn [cPtr cIdx];
    destruct r as [|[|[|[|[|]]]]]; try lia; destruct c as [|[|[|[|[|]]]]]; try lia; solv).
Qed.
Lemma sparse3 s rho lam mu jac e : e < 3 -> starCsrEq 3 = Ok s ->
  represents zero 9 9 0 (nth e (starE3sp zero one add sub mul div opp rho lam mu jac) []) s (nth e (starE3 zero one add sub mul div opp rho lam mu jac) []).
Proof.
  intros He E. destruct csrE3 as (v & E2). rewrite E2 in E. injection E as <-. destruct e as [|[|[|]]]; try lia; (split; [reflexivity|]; intros r c Hr Hc; cbn [cPtr cIdx];
    destruct r as [|[|[|[|[|[|[|[|[|]]]]]]]]]; try lia; destruct c as [|[|[|[|[|[|[|[|[|]]]]]]]]]; try lia; solv).
Qed.
Lemma sparseA2 s jac e : e < 2 -> starCsrAq 2 = Ok s ->
  represents zero 3 2 3 (nth e (starA2sp zero one add mul div opp jac) []) s (nth e (starA2 zero one add mul div opp jac) []).
Proof.
  intros He E. destruct csrA2 as (v & E2). rewrite E2 in E. injection E as <-. destruct e as [|[|]]; try lia; (split; [reflexivity|]; intros r c Hr Hc; cbn [cPtr cIdx];
    destruct r as [|[|[|]]]; try lia; destruct c as [|[|]]; try lia; solv).
Qed.
Lemma sparseA3 s jac e : e < 3 -> starCsrAq 3 = Ok s ->
  represents zero 6 3 6 (nth e (starA3sp zero one add mul div opp jac) []) s (nth e (starA3 zero one add mul div opp jac) []).
Proof.
  intros He E. destruct csrA3 as (v & E2). rewrite E2 in E. injection E as <-. destruct e as [|[|[|]]]; try lia; (split; [reflexivity|]; intros r c Hr Hc; cbn [cPtr cIdx];
    destruct r as [|[|[|[|[|[|]]]]]]; try lia; destruct c as [|[|[|]]]; try lia; solv).
Qed.
End Sparse.
