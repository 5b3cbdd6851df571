(** Model: DOF history and evaluate cache of a variable
    (sfepy/discrete/variables.py).  Arrays live in a heap, because they are
    stored by reference, shared (Variables.vec) and modified in place. *)
From Verif Require Import Base.
Set Implicit Arguments.
Open Scope nat_scope.

(** Python dictionaries with integer keys, in the insertion order. *)
Section Dict.
Context {V : Type}.
Fixpoint dget (d : list (Z * V)) (k : Z) : option V :=
  match d with [] => None | (k', v) :: t => if Z.eqb k k' then Some v else dget t k end.
Fixpoint dset (d : list (Z * V)) (k : Z) (v : V) : list (Z * V) :=
  match d with
  | [] => [(k, v)]
  | (k', v') :: t => if Z.eqb k k' then (k', v) :: t else (k', v') :: dset t k v
  end.
Fixpoint dpop (d : list (Z * V)) (k : Z) : list (Z * V) :=
  match d with
  | [] => []
  | (k', v') :: t => if Z.eqb k k' then t else (k', v') :: dpop t k
  end.
End Dict.

(** [sorted(keys)] *)
Fixpoint zinsert (x : Z) (l : list Z) : list Z :=
  match l with [] => [x] | y :: t => if (x <=? y)%Z then x :: l else y :: zinsert x t end.
Definition zsorted (l : list Z) : list Z := fold_right zinsert [] l.

(** Python list indexing: the position of [l[i]], negative [i] from the end. *)
Definition py_index (n : nat) (i : Z) : option nat :=
  if (0 <=? i)%Z then (if (i <? Z.of_nat n)%Z then Some (Z.to_nat i) else None)
  else if (- i <=? Z.of_nat n)%Z then Some (Z.to_nat (Z.of_nat n + i)) else None.

Section Variables.
(** [A] DOF values, [B] evaluated quantities, [D] time step sizes. *)
Context {A B D : Type}.
(** The evaluation kernels (eval_real() etc.) for a mode and a key (region,
    integral, integration, trace region), and the backward difference. *)
Variable ev : Z -> Z -> list A -> B.
Variable bdiff : D -> list A -> list A -> list A.

(** [slice(start, stop)], [None] stands for [slice(None)]. *)
Definition slice := option (nat * nat).
(** [a[indx]] *)
Definition sub (ix : slice) (l : list A) : list A :=
  match ix with None => l | Some (s, e) => firstn (e - s) (skipn s l) end.
(** [a[indx] = r] *)
Definition assign (ix : slice) (l r : list A) : res (list A) :=
  let old := sub ix l in
  let s := match ix with None => 0 | Some (s, _) => s end in
  if length r =? length old then Ok (firstn s l ++ r ++ skipn (s + length r) l)
  else match r with
       | [x] => Ok (firstn s l ++ repeat x (length old) ++ skipn (s + length old) l)
       | _ => Err ValueError
       end.

(** One step cache entry: keys are (key, time_derivative is 'dt'). *)
Definition kcache := list (Z * bool * B).
Definition scache := list (Z * kcache).

(** The attributes of Variable (variables.py l.1040-1062, l.1374-1385). *)
Record var := mkVar {
  v_history : option nat; v_data : list (option nat); v_step : nat; v_indx : slice;
  v_ndof : nat; v_locked : bool; v_valued : bool (* is_state_or_parameter() *);
  v_dt : D; v_cache : list (Z * scache) (* by the evaluation mode *) }.

Definition set_vdata (v : var) (d : list (option nat)) : var :=
  mkVar (v_history v) d (v_step v) (v_indx v) (v_ndof v) (v_locked v) (v_valued v) (v_dt v) (v_cache v).
Definition set_vstep (v : var) (s : nat) : var :=
  mkVar (v_history v) (v_data v) s (v_indx v) (v_ndof v) (v_locked v) (v_valued v) (v_dt v) (v_cache v).
Definition set_vindx (v : var) (ix : slice) : var :=
  mkVar (v_history v) (v_data v) (v_step v) ix (v_ndof v) (v_locked v) (v_valued v) (v_dt v) (v_cache v).
Definition set_vdt (v : var) (dt : D) : var :=
  mkVar (v_history v) (v_data v) (v_step v) (v_indx v) (v_ndof v) (v_locked v) (v_valued v) dt (v_cache v).
Definition set_vcache (v : var) (c : list (Z * scache)) : var :=
  mkVar (v_history v) (v_data v) (v_step v) (v_indx v) (v_ndof v) (v_locked v) (v_valued v) (v_dt v) c.

Definition heap := list (list A).
Definition deref (h : heap) (a : nat) : list A := nth a h [].
(** [a.copy()] *)
Definition alloc (h : heap) (x : list A) : heap * nat := (h ++ [x], length h).

(** variables.py l.1201-1206 *)
Definition init_history (v : var) : var :=
  match v_history v with
  | None => v
  | Some n => set_vstep (set_vdata v (repeat None (n + 1))) 0
  end.

(** variables.py l.1225-1227: [for ii in range(1, history + 1)]: missing
    history data are copies of the previous ones; [None.copy()] raises
    AttributeError (TypeError here). [k] iterations starting with [ii]. *)
Fixpoint adv_init (k ii : nat) (h : heap) (d : list (option nat)) : res (heap * list (option nat)) :=
  match k with
  | 0 => Ok (h, d)
  | S k' =>
      match nth ii d None with
      | Some _ => adv_init k' (S ii) h d
      | None =>
          match nth (ii - 1) d None with
          | None => Err TypeError
          | Some a => let '(h', a') := alloc h (deref h a) in
                      adv_init k' (S ii) h' (upd d ii (Some a'))
          end
      end
  end.

(** variables.py l.1229-1230: [for ii in range(history, 0, -1)]:
    [self.data[ii][self.indx] = self.data[ii - 1][self.indx]]. *)
Fixpoint adv_shift (ii : nat) (ix : slice) (h : heap) (d : list (option nat)) : res heap :=
  match ii with
  | 0 => Ok h
  | S i' =>
      match nth ii d None, nth i' d None with
      | Some a, Some b =>
          match assign ix (deref h a) (sub ix (deref h b)) with
          | Ok x => adv_shift i' ix (upd h a x) d
          | Err e => Err e
          end
      | _, _ => Err TypeError
      end
  end.

(** variables.py l.1233-1248: the step cache of one mode.  The special caches
    with the key None are not modelled. *)
Definition adv_cache1 (hist : nat) (sc : scache) : scache :=
  let steps := zsorted (map fst sc) in
  let sc' := fold_left (fun c s =>
               if (- s <? Z.of_nat hist)%Z
               then match dget c s with Some x => dset c (s - 1) x | None => c end
               else c) steps sc in
  match steps with [] => sc' | _ => dpop sc' (last steps 0%Z) end.

(** variables.py l.1212-1248; [ts_step] is [ts.step]. *)
Definition advance (ts_step : nat) (h : heap) (v : var) : res (heap * var) :=
  match v_history v with
  | None => Ok (h, v)
  | Some n =>
      let v := set_vstep v (ts_step + 1) in
      if 0 <? n then
        match adv_init n 1 h (v_data v) with
        | Err e => Err e
        | Ok (h1, d) =>
            match adv_shift n (v_indx v) h1 d with
            | Err e => Err e
            | Ok h2 => Ok (h2, set_vcache (set_vdata v d)
                                 (map (fun mc => (fst mc, adv_cache1 n (snd mc))) (v_cache v)))
            end
        end
      else Ok (h, v)
  end.

(** variables.py l.1659-1670 *)
Definition invalidate_evaluate_cache (s : Z) (v : var) : var :=
  set_vcache v (map (fun mc => (fst mc, dpop (snd mc) s)) (v_cache v)).

(** variables.py l.1653-1657 *)
Definition clear_evaluate_cache (v : var) : var := set_vcache v [].

(** variables.py l.1264-1313; [a] is the address of the (raveled) data. *)
Definition set_data (a : nat) (ix : option (nat * nat)) (s : Z) (preserve_caches : bool)
  (h : heap) (v : var) : res var :=
  if negb (v_valued v) then Err ValueError
  else if v_locked v then Err ValueError
  else
    let ix' := match ix with None => (0, length (deref h a)) | Some p => p end in
    let n_data_dof := (Z.of_nat (snd ix') - Z.of_nat (fst ix'))%Z in
    if negb (Z.eqb (Z.of_nat (v_ndof v)) n_data_dof) then Err ValueError
    else if (0 <? s)%Z || (Z.of_nat (length (v_data v)) <=? - s)%Z then Err ValueError
    else
      match py_index (length (v_data v)) s with
      | None => Err IndexError
      | Some i =>
          let v := set_vindx (set_vdata v (upd (v_data v) i (Some a))) (Some ix') in
          Ok (if preserve_caches then v else invalidate_evaluate_cache s v)
      end.

(** variables.py l.1315-1352: __call__() without derivative. *)
Definition call (h : heap) (v : var) (s : Z) : res (list A) :=
  let i := if (v_step v =? 0) && Z.eqb s (-1) then Some 0 else py_index (length (v_data v)) (- s) in
  match i with
  | None => Err IndexError
  | Some i =>
      match nth i (v_data v) None with
      | None => Err ValueError
      | Some a => Ok (sub (v_indx v) (deref h a))
      end
  end.

(** variables.py l.1353-1360: derivative='dt'. *)
Definition call_dt (h : heap) (v : var) (s : Z) (dt : option D) : res (list A) :=
  match v_history v with
  | None => Err ValueError
  | Some _ =>
      do x <- call h v s;
      do y <- call h v (s - 1);
      Ok (bdiff (match dt with Some t => t | None => v_dt v end) x y)
  end.

(** What is computed on a cache miss (l.1755-1765). *)
Definition compute (h : heap) (v : var) (mode : Z) (key : Z * bool) (s : Z) (dt : option D) : res B :=
  match (if snd key then call_dt h v s dt else call h v s) with
  | Ok x => Ok (ev mode (fst key) x)
  | Err e => Err e
  end.

Fixpoint kget (c : kcache) (k : Z * bool) : option B :=
  match c with
  | [] => None
  | (k', b) :: t => if Z.eqb (fst k) (fst k') && Bool.eqb (snd k) (snd k') then Some b else kget t k
  end.

(** variables.py l.1672-1768 *)
Definition evaluate (h : heap) (v : var) (mode : Z) (key : Z * bool) (s : Z) (dt : option D) : res B * var :=
  let sc := match dget (v_cache v) mode with Some x => x | None => [] end in
  let c := match dget sc s with Some x => x | None => [] end in
  match kget c key with
  | Some b => (Ok b, set_vcache v (dset (v_cache v) mode (dset sc s c)))
  | None =>
      match compute h v mode key s dt with
      | Ok b => (Ok b, set_vcache v (dset (v_cache v) mode (dset sc s ((key, b) :: c))))
      | Err e => (Err e, set_vcache v (dset (v_cache v) mode (dset sc s c)))
      end
  end.

(** In-place modification of the shared vector through Variables
    (set_full_state, set_reduced_state, fill_state, apply_ebc, ...,
    variables.py l.667-700, 763-820): the array at [a] gets the new content,
    and the caches of step 0 are invalidated. *)
Definition write_state (a : nat) (x : list A) (h : heap) (v : var) : heap * var :=
  (upd h a x, invalidate_evaluate_cache 0 v).

End Variables.
Arguments var : clear implicits.
Arguments scache : clear implicits.
Arguments kcache : clear implicits.
