(** Examples support: sufficient conditions for well-formedness. *)
From Coq Require Import String Relations.
From Verif Require Import Base M_dofs S_dofs S_eqmap.
Open Scope nat_scope.

Section Ex.
Variable V : Type.
Variable names : list string.

(** Conditions on disjoint node sets are well-formed. *)
Lemma epbc_disjoint_wf : forall act mn sn i1 i2 d0 d1,
  NoDup i1 -> NoDup i2 -> NoDup d0 -> NoDup d1 -> length i1 = length i2 -> length d0 = length d1 ->
  (forall i, In i i2 -> i < length (unique sn)) -> (forall x, In x mn -> ~ In x sn) ->
  wf_bc names (Epbc (V := V) act mn sn i1 i2 d0 d1).
Proof.
  intros act mn sn i1 i2 d0 d1 H1 H2 H3 H4 H5 H6 H7 H8. simpl. repeat (split; [assumption|]).
  intros m s m' T1 T2. destruct act; [|exact T1].
  destruct T1 as (k & i & p & q & K1 & K2 & K3 & K4 & (P1 & P2 & P3) & (Q1 & Q2 & Q3) & K7 & Em & Es).
  destruct T2 as (k' & i' & p' & q' & K1' & K2' & K3' & K4' & (P1' & P2' & P3') & (Q1' & Q2' & Q3') & K7' & Em' & Es').
  assert (E : nth (nth k i1 0) (unique mn) 0 = nth (nth k' i2 0) (unique sn) 0) by nia.
  apply (H8 (nth (nth k i1 0) (unique mn) 0)).
  - apply unique_In. apply nth_In; auto.
  - rewrite E. apply unique_In. apply nth_In. apply H7. apply nth_In; auto.
Qed.
End Ex.
