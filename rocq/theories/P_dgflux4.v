(** DG facet terms: the 1D mesh meets the hypotheses of C162-C168; refutations. *)
From Coq Require Import Reals ZArith Lra.
From Verif Require Import Base M_fmf L_fmf M_dgnbr S_dgnbr P_dgnbr M_dgflux S_dgflux L_dgflux L_dgflux2 P_dgflux P_dgflux2 P_dgflux3.
Open Scope R_scope.

(** The field of order 1 on a 1D mesh of [n] cells (basis 1, 2x - 1; facet sizes
    and weights 1, fields.py l.905-906, l.405-407); [per] joins the two ends. The coordinates
    of the nodes do not enter. *)
Definition line (per : bool) (n : nat) : field := mkField n 2 1 2 1
  (fun d f _ => if d =? 0 then 1 else if f =? 0 then -1 else 1)
  (fun d _ _ _ => if d =? 0 then 0 else 2)
  (fun _ => 1) (fun _ _ => 1) (fun _ f _ => if f =? 0 then -1 else 1)
  (fun i f => if f =? 0 then (if i =? 0 then (if per then Z.of_nat (n - 1) else (-1)%Z) else Z.of_nat (i - 1))
              else (if S i =? n then (if per then 0%Z else (-1)%Z) else Z.of_nat (S i)))
  (fun i f => if f =? 0 then (if (i =? 0) && negb per then (-1)%Z else 1%Z)
              else (if (S i =? n) && negb per then (-1)%Z else 0%Z)).

Theorem line_meets : forall per n, mutual (line per n) /\ matching (line per n) /\ unit_normals (line per n) /\
  weights_nonneg (line per n) /\ (per = true -> forall i f, (i < n)%nat -> (f < 2)%nat -> ~ bnd (line per n) i f).
Proof.
  intros per n. split; [|split; [|split; [|split]]].
  - intros i f Hi Hf NB. unfold bnd, facing in *. cbn -[Z.of_nat Nat.eqb] in *. destruct f as [|[|f]]; [| |lia].
    + change (0 =? 0) with true in *. cbv iota in *. destruct (Nat.eqb_spec i 0) as [->|D].
      * destruct per; [|lia]. exists (n - 1)%nat, 1%nat. change (1 =? 0) with false. cbn [andb negb].
        replace (S (n - 1) =? n) with true by (symmetry; apply Nat.eqb_eq; lia). cbn. repeat split; lia.
      * exists (i - 1)%nat, 1%nat. change (1 =? 0) with false. cbv iota.
        replace (S (i - 1) =? n) with false by (symmetry; apply Nat.eqb_neq; lia). cbn [andb]. repeat split; lia.
    + change (1 =? 0) with false in *. cbv iota in *. destruct (Nat.eqb_spec (S i) n) as [E|D].
      * destruct per; [|lia]. exists 0%nat, 0%nat. cbn. repeat split; try lia. 
      * exists (S i), 0%nat. change (0 =? 0) with true. change (S i =? 0) with false. cbn [andb]. cbv iota. repeat split; try lia.
  - split; [|split].
    + intros i f i' f' k Hi Hf (A & B) Hk. cbn -[Z.of_nat Nat.eqb] in *. destruct f as [|[|f]]; [| |lia].
      * change (0 =? 0) with true in *. cbv iota in *. destruct (((i =? 0) && negb per)%bool); [lia|].
        assert (f' = 1%nat) by lia. subst. cbn. lra.
      * change (1 =? 0) with false in *. cbv iota in *. destruct (((S i =? n) && negb per)%bool); [lia|].
        assert (f' = 0%nat) by lia. subst. cbn. lra.
    + reflexivity.
    + reflexivity.
  - intros i f Hi Hf. cbn. destruct f; cbn; lra.
  - split; intros; cbn; lra.
  - intros -> i f Hi Hf. unfold bnd. cbn -[Z.of_nat Nat.eqb]. destruct (f =? 0); [destruct (i =? 0)|destruct (S i =? n)]; lia.
Qed.

Ltac calc := cbv -[Rplus Rmult Ropp Rinv Rminus Rdiv IZR INR Rabs pow].

(** The hypotheses of C164 and C168 hold for the constant function on the line. *)
Example line_one : forall per n i f q, (f < 2)%nat ->
  trace (line per n) (fun j => if Nat.even j then 1 else 0) i f q = 1.
Proof.
  intros. unfold trace. cbn [nnod line sm]. replace (i * 2 + 0)%nat with (2 * i)%nat by lia.
  replace (i * 2 + 1)%nat with (S (2 * i)) by lia. rewrite Nat.even_succ, Nat.odd_mul.
  assert (E : Nat.even (2 * i) = true) by (rewrite Nat.even_mul; reflexivity). rewrite E. cbn. lra.
Qed.
(** ... so the total is conserved on every periodic 1D mesh. *)
Example C164_line : forall n al (a : R) u, (0 < n)%nat ->
  test_with (line true n) (fun j => if Nat.even j then 1 else 0) (adv_residual (line true n) al (fun _ _ => a) [] u) = 0.
Proof.
  intros. destruct (line_meets true n) as (M & MA & U & _ & NB). apply C164_periodic; auto.
  intros. now apply line_one.
Qed.
(** Two cells with the states 1 and 3 (upwind, a = 1, periodic): the fluxes are
    the differences to the upwind values. *)
Example C162_two_cells : let u j := nth j [1; 0; 3; 0] 0 in
  adv_residual (line true 2) 0 (fun _ _ => 1) [] u 0 0 = 1 - 3 /\
  adv_residual (line true 2) 0 (fun _ _ => 1) [] u 1 0 = 3 - 1.
Proof.
  cbv zeta. split; calc; rewrite ?Rabs_right by lra;
  repeat match goal with |- context[Rabs ?x] => first [rewrite (Rabs_right x) by lra | rewrite (Rabs_left x) by lra] end; lra.
Qed.

(** C163 is false if values are prescribed at a side that has a neighbour (such
    as a side of a periodic condition): the matrix still couples the cells. *)
Theorem C163_prescribed_inner_refuted : ~ (forall F al a e u i d, mutual F -> NoDup (map fst e) ->
  (i < ncell F)%nat -> (d < nnod F)%nat ->
  adv_residual F al a e u i d =
  coo_apply (adv_matrix F al a) u (i * nnod F + d) + adv_residual F al a e (fun _ => 0) i d).
Proof.
  intro H. destruct (line_meets false 2) as (M & _).
  specialize (H (line false 2) 1 (fun _ _ => 1) [((0, 1)%nat, fun _ => 0)] (fun j => nth j [1;0;1;0] 0) 0%nat 0%nat M).
  specialize (H ltac:(repeat constructor; intros []) ltac:(cbn; lia) ltac:(cbn; lia)).
  revert H. calc. repeat match goal with |- context[Rabs ?x] => generalize (Rabs x); intro end. lra.
Qed.

(** C164 is false for a velocity that differs between facing cells: the term
    uses the velocity of the own cell on both sides. *)
Theorem C164_variable_velocity_refuted : ~ (forall F al a u one, unit_normals F -> mutual F -> matching F ->
  (forall i f q, (i < ncell F)%nat -> (f < nfac F)%nat -> (q < nq F)%nat -> trace F one i f q = 1) ->
  test_with F one (adv_residual F al a [] u) =
  over_sides F (on_bnd F (fun i f => over_side F i f (fun q =>
     lf_flux (normal_part F a i f) al (trace F u i f q) 0)))).
Proof.
  intro H. destruct (line_meets false 2) as (M & MA & U & _).
  specialize (H (line false 2) 1 (fun i _ => INR (S i)) (fun j => if Nat.even j then 1 else 0) (fun j => if Nat.even j then 1 else 0) U M MA
     ltac:(intros; now apply line_one)).
  revert H. calc. repeat match goal with |- context[Rabs ?x] => generalize (Rabs x); intro end. simpl INR. lra.
Qed.

(** C166 is false for tensors that differ between facing cells: the gradient of
    the neighbour is multiplied by the own tensor. *)
Theorem C166_discontinuous_refuted : ~ (forall F D u v, mutual F -> matching F ->
  test_with F v (ds_residual F D (fun _ => []) u) = test_with F u (dv_residual F D [] v)).
Proof.
  intro H. destruct (line_meets false 2) as (M & MA & _).
  specialize (H (line false 2) (fun i _ _ => INR (S i)) (fun j => nth j [0;1;0;0] 0) (fun j => nth j [0;0;1;0] 0) M MA).
  revert H. calc. simpl INR. lra.
Qed.

(** C166 is false for full tensors: two cells with one common side in the plane,
    the normal along the first axis, the gradient along the second. *)
Definition pair2 : field := mkField 2 1 1 1 2
  (fun _ _ _ => 1) (fun _ _ k _ => if k =? 1 then 1 else 0) (fun _ => 1) (fun _ _ => 1)
  (fun i _ k => if k =? 0 then (if i =? 0 then 1 else -1) else 0)
  (fun i _ => if i =? 0 then 1%Z else 0%Z) (fun _ _ => 0%Z).
Theorem C166_full_tensor_refuted : ~ (forall F (D : nat -> nat -> nat -> R) u i d, mutual F ->
  (forall f, (f < nfac F)%nat -> ~ bnd F i f) -> (i < ncell F)%nat ->
  ds_residual F D (fun _ => []) u i d = sm (nfac F) (fun f => over_side F i f (fun q =>
     sm (dim F) (fun k => nrm F i f k * sm (dim F) (fun l => D i k l *
       ((dtrace F u l i f q + dtrace F u l (Z.to_nat (n0 F i f)) (Z.to_nat (n1 F i f)) (nq F - 1 - q)%nat) / 2))) * fb F d f q))).
Proof.
  intro H. specialize (H pair2 (fun _ k l => if (k =? 0) then (if l =? 1 then 1 else 2) else 0) (fun _ => 1) 0%nat 0%nat).
  assert (M : mutual pair2).
  { intros i f Hi Hf _. cbn in Hi, Hf. exists (1 - i)%nat, 0%nat. assert (f = 0%nat) by lia. subst.
    destruct i as [|[|i]]; [| |lia]; repeat split; cbn; lia. }
  specialize (H M ltac:(intros f _; unfold bnd; cbn; lia) ltac:(cbn; lia)).
  revert H. calc. lra.
Qed.

(** C166 is false of the gradients themselves: they are taken with respect to
    the reference coordinates. On a 1D mesh with nodes [x] the state p(x) = x has
    the mean gradient 1 at every inner facet, but the term sees the cell sizes. *)
Theorem C166_physical_gradient_refuted : ~ (forall n (x : nat -> R) u i d,
  (forall j, (j < n)%nat -> x j < x (S j)) ->
  (forall j f, (j < n)%nat -> (f < 2)%nat -> trace (line false n) u j f 0 = x (j + f)%nat) ->
  (0 < i)%nat -> (S i < n)%nat -> (d < 2)%nat ->
  ds_residual (line false n) (fun _ _ _ => 1) (fun _ => []) u i d =
  sm 2 (fun f => nrm (line false n) i f 0 * 1 * fb (line false n) d f 0)).
Proof.
  intro H. specialize (H 3%nat (fun j => INR j / 2) (fun j => nth j [1/4; 1/4; 3/4; 1/4; 5/4; 1/4] 0) 1%nat 1%nat).
  assert (X : forall j, (j < 3)%nat -> INR j / 2 < INR (S j) / 2) by (intros; rewrite S_INR; lra).
  specialize (H X).
  assert (Y : forall j f, (j < 3)%nat -> (f < 2)%nat -> trace (line false 3) (fun j => nth j [1/4; 1/4; 3/4; 1/4; 5/4; 1/4] 0) j f 0 = INR (j + f) / 2).
  { intros j f Hj Hf. destruct j as [|[|[|j]]]; try lia; destruct f as [|[|f]]; try lia; calc; simpl INR; lra. }
  specialize (H Y ltac:(lia) ltac:(lia) ltac:(lia)). revert H. calc. lra.
Qed.
(** What the term sees instead: on the 1D mesh the derivative of the state that
    equals the coordinate at the nodes is the size of the cell. *)
Theorem C166_reference_gradient : forall per n (x : nat -> R) u j,
  (forall f, (f < 2)%nat -> trace (line per n) u j f 0 = x (j + f)%nat) ->
  dtrace (line per n) u 0 j 0 0 = x (S j) - x j.
Proof.
  intros per n x u j H. pose proof (H 0%nat ltac:(lia)) as A. pose proof (H 1%nat ltac:(lia)) as B.
  unfold trace in A, B. unfold dtrace. cbn [line nnod sm fb fbd] in *.
  replace (j + 0)%nat with j in A by lia. replace (j + 1)%nat with (S j) in B by lia.
  change (0 =? 0) with true in *. change (1 =? 0) with false in *. cbv iota in *. lra.
Qed.

(** C167 is false for order 0 (finite volumes): the penalty vanishes whatever
    the jumps. *)
Theorem C167_order_zero_refuted : ~ (forall F D Cw o u, mutual F -> matching F -> same_sigma F D ->
  (forall q, (q < nq F)%nat -> 0 < w F q) -> 0 < Cw ->
  (forall i f k, (i < ncell F)%nat -> (f < nfac F)%nat -> 0 < vol F i f /\ 0 < D i k k) ->
  test_with F u (pen_residual F D Cw o [] u) = 0 -> forall i f q, (i < ncell F)%nat -> (f < nfac F)%nat -> (q < nq F)%nat ->
     bnd F i f -> trace F u i f q = 0).
Proof.
  intro H. destruct (line_meets false 1) as (M & MA & _).
  specialize (H (line false 1) (fun _ _ _ => 1) 1 0%nat (fun _ => 1) M MA ltac:(intros ? ? ? ? ? ? ? ? ?; reflexivity)
    ltac:(intros; cbn; lra) ltac:(lra) ltac:(intros; cbn; lra)).
  assert (Z : test_with (line false 1) (fun _ => 1) (pen_residual (line false 1) (fun _ _ _ => 1) 1 0 [] (fun _ => 1)) = 0).
  { unfold test_with. apply sm_0. intros i _. apply sm_0. intros d _. unfold pen_residual.
    rewrite (sm_0 (nfac (line false 1))); [cbv beta; ring|]. intros f _. apply sm_0. intros q _.
    assert (S0 : sigma (line false 1) (fun _ _ _ => 1) 1 0 i f = 0) by (unfold sigma; change (INR 0) with 0; unfold Rdiv; ring). rewrite S0. ring. }
  specialize (H Z 0%nat 1%nat 0%nat ltac:(cbn; lia) ltac:(cbn; lia) ltac:(cbn; lia) ltac:(unfold bnd; cbn; lia)).
  revert H. calc. lra.
Qed.
(** The positive case: order 1 on the line. *)
Example C167_line_sigma : forall n i f, sigma (line false n) (fun _ _ _ => 2) 3 1 i f = 6.
Proof. intros. unfold sigma, nu, facet_vols, whs. cbn. field. Qed.

(** C168 is false of the wave speed in general: for f' = 6 p (1 - p), zero at
    the two traces 0 and 1, the speed is zero although f' is not between them. *)
Theorem C168_wave_speed_refuted : ~ (forall F df e u i f q p, (q < nq F)%nat ->
  Rmin (in_v F u i f q) (out_v F e u i f q) <= p <= Rmax (in_v F u i f q) (out_v F e u i f q) ->
  Rabs (sm (dim F) (fun k => nrm F i f k * df p k)) <= nl_C F df e u i f).
Proof.
  intro H. set (df := fun (p : R) (_ : nat) => 6 * p * (1 - p)).
  specialize (H (line false 2) df [] (fun j => nth j [0;0;1;0] 0) 0%nat 1%nat 0%nat (1/2) ltac:(cbn; lia)).
  assert (A : in_v (line false 2) (fun j => nth j [0;0;1;0] 0) 0 1 0 = 0) by (calc; lra).
  assert (B : out_v (line false 2) [] (fun j => nth j [0;0;1;0] 0) 0 1 0 = 1) by (calc; lra).
  rewrite A, B in H. unfold nl_C in H. cbn [nq line mx] in H. rewrite A, B in H.
  rewrite Rmin_left, Rmax_right in H by lra. specialize (H ltac:(lra)).
  unfold df in H. cbn [dim line sm nrm] in H. change (1 =? 0) with false in H. cbv iota in H.
  replace (0 + 1 * (6 * 0 * (1 - 0))) with 0 in H by lra. replace (0 + 1 * (6 * 1 * (1 - 1))) with 0 in H by lra.
  rewrite Rabs_R0 in H. rewrite Rabs_right in H by lra. assert (M0 : Rmax 0 0 = 0) by (apply Rmax_left; lra). rewrite !M0 in H. lra.
Qed.

(** The neighbour index of every mesh whose facets belong to at most two cells
    is mutual, as the theorems above assume. *)
Theorem C161_mutual : forall F c2f f2c, manifold_mesh c2f f2c ->
  ncell F = length c2f -> (forall c, (c < length c2f)%nat -> length (nth c c2f []) = nfac F) ->
  n0 F = fst (mesh_nbrs c2f f2c) -> n1 F = snd (mesh_nbrs c2f f2c) -> mutual F.
Proof.
  intros F c2f f2c M NC NF E0 E1 i f Hi Hf NB. destruct (C161_facet_neighbours c2f f2c M) as (_ & _ & X).
  rewrite NC in *. destruct (X i f (nth f (nth i c2f []) 0%nat)) as (i' & f' & (Hi' & Hf' & _) & _ & (A & B & A' & B')).
  - repeat split; auto. rewrite NF; auto.
  - unfold bnd in NB. rewrite <- E0. lia.
  - exists i', f'. rewrite NF in Hf' by auto. unfold facing. rewrite E0, E1. repeat split; auto.
Qed.

Print Assumptions C161_mutual.
Print Assumptions line_meets.
Print Assumptions C163_prescribed_inner_refuted.
Print Assumptions C164_variable_velocity_refuted.
Print Assumptions C166_discontinuous_refuted.
Print Assumptions C166_full_tensor_refuted.
Print Assumptions C166_physical_gradient_refuted.
Print Assumptions C167_order_zero_refuted.
Print Assumptions C168_wave_speed_refuted.
