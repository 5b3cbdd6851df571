(** Model of sfepy/discrete/fem/periodic.py and of [find_map] of
    sfepy/discrete/fem/mesh.py.  Coordinates are rational numbers with exact
    arithmetic; distances are compared by their squares. *)
From Coq Require Import QArith Qabs.
From Verif Require Import Base.
Set Implicit Arguments.
Open Scope Q_scope.

(** A coordinate array: [a_dim] columns; [shape] is (rows, columns). *)
Record coors := mkco { a_dim : nat; a_rows : list (list Q) }.
Definition nrow (a : coors) : nat := length (a_rows a).
Definition row (a : coors) (i : nat) : list Q := nth i (a_rows a) [].
Definition col (w : nat) (a : coors) : list Q := map (fun r => nth w r 0) (a_rows a).

Definition vadd (x y : list Q) : list Q := map (fun p => fst p + snd p) (combine x y).
Definition vsub (x y : list Q) : list Q := map (fun p => fst p - snd p) (combine x y).
Definition vdot (x y : list Q) : Q := fold_right Qplus 0 (map (fun p => fst p * snd p) (combine x y)).
Definition vscale (a : Q) (x : list Q) : list Q := map (Qmult a) x.
Definition dist2 (x y : list Q) : Q := vdot (vsub x y) (vsub x y).

Inductive key := KLine (n d w : nat) | KDir (n d : nat) (dir : option (list Q)).
Definition lQ_eqb (a b : list Q) : bool := (length a =? length b)%nat && forallb (fun p => Qeq_bool (fst p) (snd p)) (combine a b).
Definition key_eqb (a b : key) : bool :=
  match a, b with
  | KLine n d w, KLine n' d' w' => ((n =? n') && (d =? d') && (w =? w'))%nat
  | KDir n d None, KDir n' d' None => ((n =? n') && (d =? d'))%nat
  | KDir n d (Some x), KDir n' d' (Some x') => ((n =? n') && (d =? d'))%nat && lQ_eqb x x'
  | _, _ => false
  end.

Section Periodic.
(** [nm.argsort] and [cKDTree.query_pairs] (specified in P_periodic.v). *)
Variable argsort : list Q -> list nat.
Variable query_pairs : Q -> list (list Q) -> list (nat * nat).
Variable eps : Q.

(** mesh.py l.16-43 [find_map(x1, x2, allow_double, join=False)] *)
Definition find_map (allow_double : bool) (x1 x2 : list (list Q)) : res (list nat * list nat) :=
  let cmap := query_pairs eps (x1 ++ x2) in
  let dns1 := filter (fun p => (snd p <? length x1)%nat) cmap in
  let dns2 := filter (fun p => (length x1 <=? fst p)%nat) cmap in
  if negb (length dns1 + length dns2 =? 0)%nat && negb allow_double then Err ValueError
  else Ok (map fst cmap, map (fun p => (snd p - length x1)%nat) cmap).

(** periodic.py l.27-41: the part of [match_grid_line] after the cache. *)
Definition match_line (c1 c2 : coors) (w : nat) : res (list nat * list nat) :=
  let x1 := col w c1 in let x2 := col w c2 in
  let i1 := argsort x1 in let i2 := argsort x2 in
  if forallb (fun p => if Qlt_le_dec (Qabs (fst p - snd p)) eps then true else false)
       (combine (take 0 x1 i1) (take 0 x2 i2))
  then Ok (i1, i2) else Err ValueError.

(** periodic.py l.65-93: the part of [match_plane_by_dir] after the cache.  The
    direction is not normalized, the projection is divided by its square. *)
Definition match_dir (c1 c2 : coors) (dir : option (list Q)) : res (list nat * list nat) :=
  do aux <- match dir with
            | None => Ok (a_rows c2)
            | Some d =>
                let d := firstn (a_dim c1) d in
                let off x2 := let v := vsub (row c1 0) x2 in
                              let p := vsub v (vscale (vdot v d / vdot d d) d) in vdot p p in
                match nonzero (fun x2 => if Qlt_le_dec (off x2) (eps * eps) then true else false) (a_rows c2) with
                | [] => Err ValueError
                | i :: _ => Ok (map (fun x2 => vadd x2 (vsub (row c1 0) (row c2 i))) (a_rows c2))
                end
            end;
  do r <- find_map false (a_rows c1) aux;
  if (length (fst r) =? nrow c1)%nat then Ok r else Err ValueError.

(** A call of [match_grid_line] or [match_plane_by_dir]. *)
Inductive what := WLine (w : nat) | WDir (dir : option (list Q)).
Record call := mkcall { k_1 : coors; k_2 : coors; k_what : what; k_saved : bool }.
Definition key_of (c : call) : key :=
  match k_what c with
  | WLine w => KLine (nrow (k_1 c)) (a_dim (k_1 c)) w
  | WDir d => KDir (nrow (k_1 c)) (a_dim (k_1 c)) d
  end.
Definition fresh (c : call) : res (list nat * list nat) :=
  match k_what c with WLine w => match_line (k_1 c) (k_2 c) w | WDir d => match_dir (k_1 c) (k_2 c) d end.
Definition same_shape (c : call) : bool :=
  ((nrow (k_1 c) =? nrow (k_2 c)) && (a_dim (k_1 c) =? a_dim (k_2 c)))%nat.

(** [periodic_cache]; the last assignment to a key is first. *)
Definition cache := list (key * (list nat * list nat)).
Definition cget (pc : cache) (k : key) : option (list nat * list nat) := option_map snd (find (fun e => key_eqb (fst e) k) pc).
(** periodic.py l.15-41 and l.52-93. *)
Definition do_call (pc : cache) (c : call) : cache * res (list nat * list nat) :=
  if negb (same_shape c) then (pc, Err ValueError) else
  match (if k_saved c then cget pc (key_of c) else None) with
  | Some r => (pc, Ok r)
  | None => match fresh c with
            | Ok r => ((key_of c, r) :: pc, Ok r)
            | Err e => (pc, Err e)
            end
  end.
(** A sequence of calls in a process. *)
Fixpoint run (pc : cache) (cs : list call) : list (res (list nat * list nat)) :=
  match cs with
  | [] => []
  | c :: cs => let '(pc, r) := do_call pc c in r :: run pc cs
  end.
End Periodic.
