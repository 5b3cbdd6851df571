(** Lemmas for the block mesh: numbering of the vertices of a tensor product grid. *)
From Coq Require Import QArith Lqa.
From Verif Require Import Base L_chains M_parallel M_periodic M_merge M_block.
Set Implicit Arguments.
Open Scope nat_scope.

Fixpoint numb (off : nat) (shape t : list nat) : nat :=
  match shape, t with n :: sh, i :: ts => numb (off * n + i) sh ts | _, _ => off end.
Definition b2n (b : bool) : nat := if b then 1 else 0.
Fixpoint addb (t : list nat) (bs : list bool) : list nat :=
  match t, bs with i :: t', b :: bs' => (i + b2n b) :: addb t' bs' | _, _ => [] end.
Definition in_shape (shape t : list nat) : Prop := Forall2 (fun n i => i < n) shape t.

Lemma seq_S_map : forall n k, seq (S k) n = map S (seq k n).
Proof. intros. symmetry. apply seq_shift. Qed.
Lemma flat_map_map' : forall A B C (f : A -> B) (g : B -> list C) l, flat_map g (map f l) = flat_map (fun x => g (f x)) l.
Proof. intros A B C f g l. induction l as [|x t IH]; cbn; auto. rewrite IH. auto. Qed.
Lemma map_flat_map : forall A B C (f : B -> C) (g : A -> list B) l, map f (flat_map g l) = flat_map (fun x => map f (g x)) l.
Proof. intros A B C f g l. induction l as [|x t IH]; cbn; auto. rewrite map_app, IH. auto. Qed.
Lemma flat_map_ext' : forall A B (f g : A -> list B) l, (forall x, f x = g x) -> flat_map f l = flat_map g l.
Proof. intros A B f g l H. induction l as [|x t IH]; cbn; auto. rewrite H, IH. auto. Qed.

Lemma flat_spec : forall shape bits off, length bits = length shape ->
  flat off shape bits = map (fun t => numb off shape (addb t bits)) (tuples (map (fun n => n - 1) shape)).
Proof.
  induction shape as [|n sh IH]; intros [|b bs] off L; cbn in L; try lia; [reflexivity|].
  cbn [flat tuples map]. rewrite map_flat_map. unfold rng.
  assert (E : seq (if b then 1 else 0) (n - 1) = map (fun i => i + b2n b) (seq 0 (n - 1))).
  { destruct b; cbn [b2n].
    - rewrite seq_S_map. apply map_ext. intros. lia.
    - rewrite <- (map_id (seq 0 (n - 1))) at 1. apply map_ext. intros. lia. }
  rewrite E, flat_map_map'. apply flat_map_ext'. intros i. rewrite IH by lia. rewrite map_map. apply map_ext. intros t. reflexivity.
Qed.

Lemma prod_cons : forall n l, prod (n :: l) = n * prod l.
Proof. reflexivity. Qed.
Lemma length_tuples : forall shape, length (tuples shape) = prod shape.
Proof.
  induction shape as [|n sh IH]; [reflexivity|]. cbn [tuples]. rewrite prod_cons.
  assert (H : forall l, length (flat_map (fun i => map (cons i) (tuples sh)) l) = length l * prod sh).
  { induction l as [|x l IHl]; cbn; auto. rewrite app_length, map_length, IH, IHl. lia. }
  rewrite H, seq_length. auto.
Qed.
Lemma tuples_In : forall shape t, In t (tuples shape) <-> in_shape shape t.
Proof.
  unfold in_shape. induction shape as [|n sh IH]; intros t; cbn [tuples].
  - split; [intros [<-|[]]; constructor|intros H; inversion H; left; auto].
  - rewrite in_flat_map. split.
    + intros (i & A & B). apply in_map_iff in B. destruct B as (t' & <- & B). apply in_seq in A. constructor; [lia|]. apply IH. auto.
    + intros H. inversion H as [|a i b t' A B]; subst. exists i. split; [apply in_seq; lia|]. apply in_map. apply IH. auto.
Qed.
Lemma numb_off : forall shape t off, length t = length shape -> numb off shape t = off * prod shape + numb 0 shape t.
Proof.
  induction shape as [|n sh IH]; intros [|i t] off L; cbn in L; try lia; cbn [numb].
  - cbn. lia.
  - rewrite prod_cons, (IH t (off * n + i)) by lia. rewrite (IH t (0 * n + i)) by lia. nia.
Qed.
Lemma in_shape_length : forall shape t, in_shape shape t -> length t = length shape.
Proof. intros shape t H. induction H; cbn; auto. Qed.
Lemma numb_lt : forall shape t, in_shape shape t -> numb 0 shape t < prod shape.
Proof.
  intros shape t H. induction H as [|n i sh t H1 H2 IH]; cbn [numb]; [cbn; lia|]. rewrite prod_cons, numb_off by (apply in_shape_length; auto). nia.
Qed.
Lemma nth_flat_map_eq : forall A B (f : A -> list B) L l i k da db, (forall x, In x l -> length (f x) = L) -> i < length l -> k < L ->
  nth (i * L + k) (flat_map f l) db = nth k (f (nth i l da)) db.
Proof.
  intros A B f L l. induction l as [|x t IH]; intros i k da db H Hi Hk; cbn in Hi; [lia|]. cbn [flat_map].
  assert (LX : length (f x) = L) by (apply H; left; auto). destruct i as [|i].
  - cbn. rewrite app_nth1 by lia. auto.
  - rewrite app_nth2 by (rewrite LX; nia). rewrite LX. replace (S i * L + k - L) with (i * L + k) by nia. cbn [nth]. apply IH; auto; [|lia].
    intros y Y. apply H. right; auto.
Qed.
Lemma nth_numb : forall shape t d, in_shape shape t -> nth (numb 0 shape t) (tuples shape) d = t.
Proof.
  intros shape t d H. induction H as [|n i sh t H1 H2 IH]; [reflexivity|]. cbn [numb tuples]. rewrite numb_off by (apply in_shape_length; auto).
  replace ((0 * n + i) * prod sh) with (i * prod sh) by lia.
  rewrite nth_flat_map_eq with (da := 0); [|intros x _; rewrite map_length; apply length_tuples|rewrite seq_length; auto|apply numb_lt; auto].
  rewrite nth_seq0 by auto. rewrite nth_map_in with (da := d) by (rewrite length_tuples; apply numb_lt; auto). rewrite IH. auto.
Qed.
Lemma numb_inj : forall shape t t', in_shape shape t -> in_shape shape t' -> numb 0 shape t = numb 0 shape t' -> t = t'.
Proof. intros shape t t' H H' E. rewrite <- (nth_numb [] H), <- (nth_numb [] H'), E. auto. Qed.
Lemma tuples_NoDup : forall shape, NoDup (tuples shape).
Proof.
  induction shape as [|n sh IH]; cbn [tuples]; [repeat constructor; intros []|].
  assert (N : NoDup (seq 0 n)) by apply seq_NoDup. induction N as [|i l A B IHl]; cbn [flat_map]; [constructor|].
  apply NoDup_app_intro.
  - apply FinFun.Injective_map_NoDup; auto. intros a b E. congruence.
  - auto.
  - intros x X Y. apply in_map_iff in X. destruct X as (t & <- & X). apply in_flat_map in Y. destruct Y as (j & Y1 & Y2). apply in_map_iff in Y2.
    destruct Y2 as (t' & E & _). injection E as -> ->. contradiction.
Qed.
(** The cells of the grid. *)
Lemma conn_spec : forall shape, 1 <= length shape <= 3 ->
  get_tensor_product_conn shape =
  map (fun t => map (fun bits => numb 0 shape (addb t bits)) (columns (length shape))) (tuples (map (fun n => n - 1) shape)).
Proof.
  intros shape L. unfold get_tensor_product_conn. set (T := tuples (map (fun n => n - 1) shape)). rewrite <- length_tuples. fold T.
  assert (CL : forall bits, In bits (columns (length shape)) -> length bits = length shape).
  { destruct shape as [|a [|b [|c [|d s]]]]; cbn in L; try lia; cbn; intros bits H; repeat (destruct H as [<-|H]; [reflexivity|]); destruct H. }
  replace (map (fun t => map (fun bits => numb 0 shape (addb t bits)) (columns (length shape))) T) with (map (fun e => map (fun bits => numb 0 shape (addb (nth e T []) bits)) (columns (length shape))) (seq 0 (length T)))
    by (rewrite <- (map_map (fun e => nth e T []) (fun t => map (fun bits => numb 0 shape (addb t bits)) (columns (length shape)))); f_equal; apply nth_ext with (d := []) (d' := []); [rewrite map_length, seq_length; auto|intros e He; rewrite map_length, seq_length in He; rewrite nth_map_in with (da := 0) by (rewrite seq_length; auto); rewrite nth_seq0; auto]). apply map_ext_in. intros e He. apply in_seq in He.
  rewrite map_map. apply map_ext_in. intros bits Hb. rewrite flat_spec by auto. fold T. rewrite nth_map_in with (da := []) by lia. auto.
Qed.
