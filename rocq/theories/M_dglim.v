(** Model of the DG limiters, /repo/sfepy/discrete/dg/limiters.py, and of the
    multi-index enumeration of /repo/sfepy/discrete/dg/poly_spaces.py l.15-98.
    Arrays are functions of their indices (only indices in range are used);
    numbers are reals. Output messages are not modelled. *)
From Coq Require Import List Arith ZArith Lia Reals Lra.
Import ListNotations.
Open Scope R_scope.

Definition vec := nat -> R.

(** nm.sign *)
Definition sgn (x : R) : R := if Rlt_dec 0 x then 1 else if Rlt_dec x 0 then -1 else 0.
Definition reqb (x y : R) : bool := if Req_EM_T x y then true else false.
Definition rltb (x y : R) : bool := if Rlt_dec x y then true else false.

(** limiters.py l.11 *)
Definition machine_eps : R := / 10 ^ 30.

(** limiters.py l.15-41 minmod(a, b, c), one entry *)
Definition minmod (a b c : R) : R :=
  if (reqb (sgn a) (sgn b) && reqb (sgn b) (sgn c))%bool
  then sgn a * Rmin (Rmin (Rabs b) (Rabs a)) (Rabs c) else 0.

(** limiters.py l.44-66 minmod_seq(abc), one entry; [abc[0]] is the head. *)
Definition minmod_seq (a : R) (l : list R) : R :=
  if forallb (fun x => reqb (sgn a) (sgn x)) (a :: l)
  then sgn a * fold_left Rmin (map Rabs l) (Rabs a) else 0.

(** dg/fields.py l.15-54, l.57-95: unravel and ravel of (n_cell, n_el_nod) arrays
    with the axes swapped: [u[ll, cell]]. *)
Definition unravel (n_el_nod : nat) (v : vec) : nat -> nat -> R := fun ll k => v (k * n_el_nod + ll)%nat.
Definition ravel (n_el_nod : nat) (u : nat -> nat -> R) : vec := fun i => u (i mod n_el_nod)%nat (i / n_el_nod)%nat.

Definition mem (i : nat) (l : list nat) : bool := existsb (Nat.eqb i) l.

(** ** MomentLimiter1D (l.101-144) *)
(** [nu], [tilu], [idx]; cells of [idx] are numbered from the second cell. *)
Definition st1 := ((nat -> nat -> R) * (nat -> R) * list nat)%type.

(** l.128-142, one value of [ll] *)
Definition lim1_step (ll : nat) (st : st1) : st1 :=
  let '(nu, tilu, idx) := st in
  let tilu' := fun i => if mem i idx
     then minmod (nu ll (i + 1)%nat) (nu (ll - 1)%nat (i + 2)%nat - nu (ll - 1)%nat (i + 1)%nat)
                 (nu (ll - 1)%nat (i + 1)%nat - nu (ll - 1)%nat i)
     else tilu i in
  let idx' := filter (fun i => rltb machine_eps (Rabs (tilu' i - nu ll (i + 1)%nat))) idx in
  let nu' := fun l k => if (Nat.eqb l ll && Nat.ltb 0 k && mem (k - 1) idx')%bool then tilu' (k - 1)%nat else nu l k in
  (nu', tilu', idx').

(** [for ll in range(n_el_nod - 1, 0, -1)]; the test [len(idx_bc) == 0] of l.139
    is false for any mesh with a cell. *)
Fixpoint lim1_loop (ll : nat) (st : st1) : st1 :=
  match ll with O => st | S l => lim1_loop l (lim1_step ll st) end.

(** l.109-144 *)
Definition limiter1d (n_el_nod n_cell : nat) (v : vec) : vec :=
  if Nat.eqb n_el_nod 1 then v
  else let u := unravel n_el_nod v in
       let '(nu, _, _) := lim1_loop (n_el_nod - 1) (u, fun _ => 0, seq 0 (n_cell - 2)) in
       ravel n_el_nod nu.

(** ** iter_by_order (poly_spaces.py l.15-62) and get_n_el_nod (l.65-98) *)
Definition iter1 (order : nat) : list (list nat) := map (fun i => [i]) (seq 0 (order + 1)).
Definition iter2 (order : nat) (extended : bool) : list (nat * nat) :=
  let porder := (order + 1)%nat in
  flat_map (fun k => map (fun i => (i, k - i)%nat) (seq 0 (k + 1))) (seq 0 porder)
  ++ (if extended
      then flat_map (fun k => flat_map (fun i => if Nat.leb (i + k) (porder - 1) then [] else [(i, k)]) (seq 1 (porder - 1)))
                    (seq 1 (porder - 1))
      else []).
Definition iter3 (order : nat) (extended : bool) : list (nat * nat * nat) :=
  flat_map (fun k => flat_map (fun j => map (fun i => (i, j - i, k - j)%nat) (seq 0 (j + 1))) (seq 0 (k + 1)))
           (seq 0 (order + 1)).
(** l.95-98: (order+1)**dim, or the product (order+1)...(order+dim) over dim!
    ([int] of an exact quotient). *)
Definition get_n_el_nod (order dim : nat) (extended : bool) : nat :=
  if extended then ((order + 1) ^ dim)%nat
  else (fold_right Nat.mul 1 (map (fun i => order + i + 1) (seq 0 dim)) / fold_right Nat.mul 1 (seq 1 dim))%nat.

(** ** MomentLimiter2D (l.147-217) *)
(** [nu[ii, jj, cell]], [tilu], [idx], and whether the loop was left. *)
Definition nu2 := nat -> nat -> nat -> R.
Definition st2 := (nu2 * (nat -> R) * list nat * bool)%type.

Section Lim2.
(** [nb c f]: facet_neighbours[c, f, 0], -1 for no neighbour. *)
Variables (order : nat) (extended : bool) (n_el_nod n_cell : nat) (nb : nat -> nat -> Z).
Let nbc c f : nat := Z.to_nat (nb c f).

(** l.186-199 *)
Definition alf (i : nat) : R := sqrt ((2 * INR i - 1) / (2 * INR i + 1)).
Definition minmod_args (nu : nu2) (ii jj c : nat) : list R :=
  (if Nat.leb 1 ii
   then [ alf ii * (nu (ii - 1)%nat jj (nbc c 1) - nu (ii - 1)%nat jj c);
          alf ii * (nu (ii - 1)%nat jj c - nu (ii - 1)%nat jj (nbc c 3)) ] else [])
  ++ (if Nat.leb 1 jj
   then [ alf jj * (nu ii (jj - 1)%nat (nbc c 2) - nu ii (jj - 1)%nat c);
          alf jj * (nu ii (jj - 1)%nat c - nu ii (jj - 1)%nat (nbc c 0)) ] else []).

(** l.181-210, one pair (ii, jj) *)
Definition lim2_step (st : st2) (p : nat * nat) : st2 :=
  let '(nu, tilu, idx, stop) := st in
  let '(ii, jj) := p in
  if stop then st else
  let tilu' := fun c => if mem c idx then minmod_seq (nu ii jj c) (minmod_args nu ii jj c) else tilu c in
  let idx' := filter (fun c => rltb machine_eps (Rabs (tilu' c - nu ii jj c))) idx in
  match idx' with
  | [] => (nu, tilu', idx', true)
  | _ => (fun i j c => if (Nat.eqb i ii && Nat.eqb j jj && mem c idx')%bool then tilu' c else nu i j c, tilu', idx', false)
  end.

(** l.170-171: the cells all of whose neighbours have a positive number *)
Definition inner_cells (n_facet : nat) : list nat :=
  filter (fun c => forallb (fun f => (0 <? nb c f)%Z) (seq 0 n_facet)) (seq 0 n_cell).

(** index of the pair in the enumeration (l.177-179, l.212-215) *)
Fixpoint set_pairs (ps : list (nat * nat)) (ll : nat) (u : nat -> nat -> R) (nu : nu2) : nu2 :=
  match ps with
  | [] => nu
  | (ii, jj) :: ps => set_pairs ps (S ll) u (fun i j c => if (Nat.eqb i ii && Nat.eqb j jj)%bool then u ll c else nu i j c)
  end.

(** l.154-217, for cells with four facets *)
Definition limiter2d (v : vec) : vec :=
  if Nat.eqb n_el_nod 1 then v
  else
    let u := unravel n_el_nod v in
    let ps := iter2 order extended in
    let nu := set_pairs ps 0 u (fun _ _ _ => 0) in
    let '(nu, _, _, _) := fold_left lim2_step (rev ps) (nu, fun _ => 0, inner_cells 4, false) in
    ravel n_el_nod (fun ll c => let p := nth ll ps (0, 0)%nat in nu (fst p) (snd p) c).
End Lim2.

(** ** ComposedLimiter (l.220-239): fields given by their numbers of DOFs
    [n_bubble_dof] and their limiters (on the slice, numbered from 0). *)
Fixpoint limiter_slices (sizes : list nat) (start : nat) : list (nat * nat) :=
  match sizes with [] => [] | n :: r => (start, start + n)%nat :: limiter_slices r (start + n)%nat end.
Definition slice (u : vec) (a : nat) : vec := fun i => u (a + i)%nat.
Fixpoint composed_loop (sl : list ((nat * nat) * (vec -> vec))) (u lu : vec) : vec :=
  match sl with
  | [] => lu
  | ((a, b), lim) :: r =>
      composed_loop r u (fun i => if (Nat.leb a i && Nat.ltb i b)%bool then lim (slice u a) (i - a)%nat else lu i)
  end.
Definition composed (fields : list (nat * (vec -> vec))) (u : vec) : vec :=
  composed_loop (combine (limiter_slices (map fst fields) 0) (map snd fields)) u (fun _ => 0).
