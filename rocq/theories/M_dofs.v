(** Model: DOF layout, node-to-equation expansion and the equation mapping
    (sfepy/discrete/common/dof_info.py, sfepy/discrete/variables.py). *)
From Coq Require Import String.
From Verif Require Import Base.
Open Scope nat_scope.
Set Implicit Arguments.

(** ** Python dictionaries with string keys (insertion ordered, unique keys). *)
Fixpoint dget {V} (d : list (string * V)) (k : string) : option V :=
  match d with
  | [] => None
  | (k', v) :: t => if String.eqb k k' then Some v else dget t k
  end.
Fixpoint dset {V} (d : list (string * V)) (k : string) (v : V) : list (string * V) :=
  match d with
  | [] => [(k, v)]
  | (k', v') :: t => if String.eqb k k' then (k', v) :: t else (k', v') :: dset t k v
  end.
Definition sin (x : string) (l : list string) : bool := existsb (String.eqb x) l.

(** ** DofInfo : dof_info.py l.92-208. Slices are (start, stop) pairs; the
    [details] dictionary (passed through only) is not modelled. *)
Record dofinfo := mk_di {
  di_n_var : nat; di_names : list string; di_ndof : list (string * nat);
  di_total : nat; di_indx : list (string * (nat * nat)); di_shared : list (string * string) }.

(** dof_info.py l.98-107, DofInfo.__init__ *)
Definition di_empty : dofinfo := mk_di 0 [] [] 0 [] [].

(** dof_info.py l.109-120, DofInfo._update_after_append *)
Definition update_after_append (di : dofinfo) (name : string) (shared : option string) : res dofinfo :=
  match shared with
  | None =>
      match dget (di_ndof di) name with
      | None => Err KeyError
      | Some n =>
          let indx0 := di_total di in
          Ok (mk_di (S (di_n_var di)) (di_names di) (di_ndof di) (di_total di + n)
                    (dset (di_indx di) name (indx0, indx0 + n)) (di_shared di))
      end
  | Some sh =>
      match dget (di_indx di) sh, dget (di_ndof di) sh with
      | Some ix, Some n =>
          Ok (mk_di (S (di_n_var di)) (di_names di) (dset (di_ndof di) name n) (di_total di)
                    (dset (di_indx di) name ix) (dset (di_shared di) name sh))
      | _, _ => Err KeyError
      end
  end.

(** dof_info.py l.122-142, append_variable, and l.144-161, append_raw
    ([shared = None]); [n_dof] is the result of [var.get_dof_info]. *)
Definition di_append (di : dofinfo) (name : string) (n_dof : nat) (shared : option string) : res dofinfo :=
  if sin name (di_names di) then Err ValueError else
  update_after_append
    (mk_di (di_n_var di) (di_names di ++ [name]) (dset (di_ndof di) name n_dof)
           (di_total di) (di_indx di) (di_shared di)) name shared.

(** A sequence of append calls; the first exception ends it. *)
Fixpoint di_run (di : dofinfo) (ops : list (string * nat * option string)) : res dofinfo :=
  match ops with
  | [] => Ok di
  | (name, n, sh) :: t => do di' <- di_append di name n sh; di_run di' t
  end.

(** dof_info.py l.180-198, get_subset_info *)
Fixpoint di_subset_from (di acc : dofinfo) (names : list string) : res dofinfo :=
  match names with
  | [] => Ok acc
  | v :: t =>
      if sin v (di_names di) then
        match dget (di_ndof di) v with
        | None => Err KeyError
        | Some n => do acc' <- di_append acc v n None; di_subset_from di acc' t
        end
      else di_subset_from di acc t
  end.
Definition di_subset (di : dofinfo) (names : list string) : res dofinfo :=
  di_subset_from di di_empty names.

(** ** Expansion of nodes to DOFs *)

(** dof_info.py l.16-28, expand_nodes_to_dofs: a (n_nod, dpn) array. *)
Definition expand_nodes_to_dofs (nods : list nat) (dpn : nat) : list (list nat) :=
  map (fun n => map (fun i => dpn * n + i) (seq 0 dpn)) nods.

(** [l.index(x)] : position of the first occurrence, ValueError if missing. *)
Fixpoint index_of (x : string) (l : list string) : res nat :=
  match l with
  | [] => Err ValueError
  | y :: t => if String.eqb x y then Ok 0 else do i <- index_of x t; Ok (S i)
  end.

(** dof_info.py l.46-49, the loop over [enumerate(dof_names)]:
    [eq[ii::nc] = dpn * nods + idof]. *)
Fixpoint expand_loop (nods : list nat) (dpn nc : nat) (all : list string)
         (ii : nat) (dofs : list string) (eq : list nat) : res (list nat) :=
  match dofs with
  | [] => Ok eq
  | d :: t =>
      do idof <- index_of d all;
      let pos := map (fun k => ii + k * nc) (seq 0 (length nods)) in
      expand_loop nods dpn nc all (S ii) t (put eq pos (map (fun n => dpn * n + idof) nods))
  end.

(** dof_info.py l.30-50, expand_nodes_to_equations; [junk] is the content of
    [nm.empty]. *)
Definition expand_nodes_to_equations (junk : nat) (nods : list nat) (dofs all : list string) : res (list nat) :=
  let nc := length dofs in
  expand_loop nods (length all) nc all 0 dofs (repeat junk (length nods * nc)).

(** ** Chains *)

(** [l.pop(i)] *)
Fixpoint removeat {A} (i : nat) (l : list A) : list A :=
  match l, i with
  | [], _ => []
  | _ :: t, 0 => t
  | h :: t, S i' => h :: removeat i' t
  end.

(** [set.add] on a duplicate-free list *)
Definition setadd (x : nat) (s : list nat) : list nat := if memb x s then s else s ++ [x].

(** dof_info.py l.67-82, inner [while] of group_chains. *)
Fixpoint gc_inner (fuel : nat) (chain : list nat) (l : list (nat * nat)) (ii : nat)
  : option (list nat * list (nat * nat)) :=
  match fuel with
  | 0 => None
  | S f =>
      if ii <? length l then
        let '(a, b) := nth ii l (0, 0) in
        let c0 := Nat.min a b in let c1 := Nat.max a b in
        let is0 := memb c0 chain in let is1 := memb c1 chain in
        if is0 && is1 then gc_inner f chain (removeat ii l) ii
        else if is0 || is1 then gc_inner f (setadd c1 (setadd c0 chain)) (removeat ii l) 0
        else gc_inner f chain l (S ii)
      else Some (chain, l)
  end.

Definition gc_fuel (l : list (nat * nat)) : nat := S (length l * S (length l) + length l).

(** dof_info.py l.63-90, group_chains (the final counting of chain lengths has
    no effect and is omitted); [ord] is the iteration order of a Python set. *)
Fixpoint gc_outer (ord : list nat -> list nat) (fuel : nat) (l : list (nat * nat)) : option (list (list nat)) :=
  match l with
  | [] => Some []
  | (a, b) :: t =>
      match fuel with
      | 0 => None
      | S f =>
          match gc_inner (gc_fuel t) (setadd b [a]) t 0 with
          | None => None
          | Some (chain, l') =>
              match gc_outer ord f l' with
              | None => None
              | Some r => Some (ord chain :: r)
              end
          end
      end
  end.
Definition group_chains (ord : list nat -> list nat) (l : list (nat * nat)) : option (list (list nat)) :=
  gc_outer ord (length l) l.

(** dof_info.py l.52-59, resolve_chains *)
Fixpoint resolve_chains (ms : list Z) (chains : list (list nat)) : list Z :=
  match chains with
  | [] => ms
  | ch :: t =>
      let slave := last ch 0 in
      let ms1 := put1 ms (removelast ch) (Z.of_nat slave + 1)%Z in
      let ms2 := upd ms1 slave (- Z.of_nat (hd 0%nat ch) - 1)%Z in
      resolve_chains ms2 t
  end.

(** ** Equation mapping *)
Section EqMap.
Variable V : Type.          (* field dtype *)
Variable vzero : V.

(** A single condition as seen by map_equations.
    [Ebc active region_nodes dofs vals]: [vals] is [nm.ravel(vv)] (or None).
    [Epbc active master_nodes slave_nodes i1 i2 dofs0 dofs1]: [(i1, i2)] is the
    result of the matching function.  Node lists are the results of
    [field.get_dofs_in_region], which contain no -1 (fields_base.py l.583-620:
    negative entries are removed), so the removal of a leading -1 is omitted. *)
Inductive bcond :=
| Ebc (active : bool) (rnods : list nat) (dofs : list string) (vals : option (list V))
| Epbc (active : bool) (mnods snods : list nat) (i1 i2 : list nat) (dofs0 dofs1 : list string).

Record mstate := mk_ms { m_flag : list bool; m_val : list V; m_ms : list Z; m_ch : list (nat * nat) }.

Definition inrange (n : nat) (l : list nat) : bool := forallb (fun i => i <? n) l.

(** [a[is]] with an IndexError *)
Definition takeE {A} (d : A) (l : list A) (is : list nat) : res (list A) :=
  if inrange (length l) is then Ok (take d l is) else Err IndexError.

(** NumPy broadcasting of a right-hand side of size 1 to [n] items. *)
Definition broadcast (n : nat) (vs : list V) : res (list V) :=
  if length vs =? n then Ok vs
  else match vs with [v] => Ok (repeat v n) | _ => Err ValueError end.

(** [(aux - sgn) * sgn] with [sgn = sign(aux)], dof_info.py l.438-440 *)
Definition partner (ms : list Z) (x : nat) : nat := Z.to_nat (Z.abs (nth x ms 0%Z) - 1).

Definition nz (ms : list Z) (x : nat) : bool := negb (Z.eqb (nth x ms 0%Z) 0).

(** dof_info.py l.434-462: registration of the pairs of one EPBC. *)
Definition epbc_register (ms : list Z) (ch : list (nat * nat)) (meq seq_ : list nat) : list Z * list (nat * nat) :=
  let m_as := nonzero (nz ms) meq in
  let s_as := nonzero (nz ms) seq_ in
  let tk := take 0 in
  match m_as, s_as with
  | [], [] =>
      let ms1 := put ms meq (map (fun s => Z.of_nat s + 1)%Z seq_) in
      (put ms1 seq_ (map (fun m => - Z.of_nat m - 1)%Z meq), ch)
  | _, _ =>
      let om := map (fun m => (m, partner ms m)) (tk meq m_as) in
      let os := map (fun s => (s, partner ms s)) (tk seq_ s_as) in
      let mc := combine (tk meq m_as) (tk seq_ m_as) in
      let msd := setdiff1d s_as m_as in
      let sc := combine (tk meq msd) (tk seq_ msd) in
      let msa := union1d m_as s_as in
      let ii := setdiff1d (seq 0 (length meq)) msa in
      let ms1 := put ms (tk meq ii) (map (fun s => Z.of_nat s + 1)%Z (tk seq_ ii)) in
      let ms2 := put ms1 (tk seq_ ii) (map (fun m => - Z.of_nat m - 1)%Z (tk meq ii)) in
      (ms2, ch ++ om ++ os ++ mc ++ sc)
  end.

(** dof_info.py l.333-462, one turn of the loop over conditions (DG conditions
    and the [active_bcs] signatures are not modelled).  Unequal sizes of [meq]
    and [seq] are treated as an error. *)
Definition map_step (junk : nat) (names : list string) (st : mstate) (bc : bcond) : res mstate :=
  let n := length (m_flag st) in
  match bc with
  | Ebc act rnods dofs vals =>
      if negb act then Ok st else
      if length rnods =? 0 then Ok st else
      do eq <- expand_nodes_to_equations junk (unique rnods) dofs names;
      if negb (inrange n eq) then Err IndexError else
      let fl := put1 (m_flag st) eq true in
      match vals with
      | None => Ok (mk_ms fl (m_val st) (m_ms st) (m_ch st))
      | Some vs =>
          do vs' <- broadcast (length eq) vs;
          Ok (mk_ms fl (put (m_val st) eq vs') (m_ms st) (m_ch st))
      end
  | Epbc act mnods snods i1 i2 dofs0 dofs1 =>
      if negb act then Ok st else
      if length mnods =? 0 then Ok st else
      let nmaster := unique mnods in
      if length snods =? 0 then Err IndexError else
      let nslave := unique snods in
      if negb (length nmaster =? length nslave) then Err ValueError else
      do mn <- takeE 0 nmaster i1;
      do sn <- takeE 0 nslave i2;
      do meq <- expand_nodes_to_equations junk mn dofs0 names;
      do seq_ <- expand_nodes_to_equations junk sn dofs1 names;
      if negb (inrange n meq && inrange n seq_) then Err IndexError else
      if negb (length meq =? length seq_) then Err ValueError else
      let '(ms', ch') := epbc_register (m_ms st) (m_ch st) meq seq_ in
      Ok (mk_ms (m_flag st) (m_val st) ms' ch')
  end.

Fixpoint map_loop (junk : nat) (names : list string) (st : mstate) (bcs : list bcond) : res mstate :=
  match bcs with
  | [] => Ok st
  | bc :: t => do st' <- map_step junk names st bc; map_loop junk names st' t
  end.

(** The resulting EquationMap attributes. *)
Record eqmap := mk_em {
  em_eq : list Z; em_eqi : list nat; em_ebc : list nat; em_val : list V;
  em_master : list nat; em_slave : list nat }.
Definition em_neq (em : eqmap) : nat := length (em_eqi em).

(** dof_info.py l.467-482, propagation of EBCs via PBCs. *)
Definition propagate (fl : list bool) (val : list V) (master slave : list nat) : list bool * list V :=
  let gb := fun i => nth i fl false in
  let ms := combine master slave in
  let mk0 := filter (fun p => gb (fst p)) ms in
  let mk1 := filter (fun p => gb (snd p)) ms in
  let im0 := map fst mk0 in let im1 := map snd mk0 in
  let is0 := map snd mk1 in let is1 := map fst mk1 in
  let val1 := put val im1 (take vzero val im0) in
  let fl1 := put fl im1 (take false fl im0) in
  let val2 := put val1 is1 (take vzero val1 is0) in
  let fl2 := put fl1 is1 (take false fl1 is0) in
  (fl2, val2).

(** dof_info.py l.464-466, [self.master], [self.slave] *)
Definition masters (ms : list Z) : list nat := nonzero (fun z => (0 <? z)%Z) ms.
Definition slaves (ms : list Z) : list nat :=
  map (fun m => Z.to_nat (nth m ms 0%Z - 1)) (masters ms).

(** dof_info.py l.464-498, the part after the loop; [unused] are the expanded
    unused DOFs ([self._mark_unused], l.291-296). *)
Definition finish (ord : list nat -> list nat) (n : nat) (unused : list nat) (st : mstate) : res eqmap :=
  match group_chains ord (m_ch st) with
  | None => Err OutOfFuel
  | Some chains =>
      let ms := resolve_chains (m_ms st) chains in
      let master := masters ms in
      let slave := slaves ms in
      let '(fl, val) := propagate (m_flag st) (m_val st) master slave in
      let ebc := nonzero (fun b => b) fl in
      let vals := take vzero val ebc in
      let eq0 := map Z.of_nat (seq 0 n) in
      let eq1 := put1 eq0 ebc (-2)%Z in
      let eq2 := put1 eq1 master (-1)%Z in
      let eq3 := put1 eq2 unused (-3)%Z in
      let eqi := map Z.to_nat (filter (fun z => (0 <=? z)%Z) eq3) in
      let eq4 := put eq3 eqi (map Z.of_nat (seq 0 (length eqi))) in
      let eq5 := put eq4 master (take 0%Z eq4 slave) in
      Ok (mk_em eq5 eqi ebc vals master slave)
  end.

(** dof_info.py l.298-498, map_equations with [bcs] given; [n] = var_di.n_dof. *)
Definition map_equations (junk : nat) (ord : list nat -> list nat) (n : nat)
    (names : list string) (unused : list nat) (bcs : list bcond) : res eqmap :=
  do st <- map_loop junk names
             (mk_ms (repeat false n) (repeat vzero n) (repeat 0%Z n) []) bcs;
  finish ord n unused st.

(** dof_info.py l.269-289, _init_empty (bcs is None) *)
Definition init_empty (n : nat) (unused : option (list nat)) : eqmap :=
  let eq0 := map Z.of_nat (seq 0 n) in
  match unused with
  | None => mk_em eq0 (seq 0 n) [] [] [] []
  | Some un =>
      let eq1 := put1 eq0 un (-3)%Z in
      let eqi := map Z.to_nat (filter (fun z => (0 <=? z)%Z) eq1) in
      mk_em (put eq1 eqi (map Z.of_nat (seq 0 (length eqi)))) eqi [] [] [] []
  end.

(** variables.py l.1886-1921, get_full without unused DOFs ([junkv]: content of
    [nm.empty] or of the buffer [vec]); [force] is [force_value]. *)
Definition get_full (junkv : list V) (em : eqmap) (force : option V) (r : list V) : list V :=
  let v1 := match force with
            | None => put junkv (em_ebc em) (em_val em)
            | Some f => put1 junkv (em_ebc em) f
            end in
  let v2 := put v1 (em_eqi em) r in
  put v2 (em_master em) (take vzero v2 (em_slave em)).

(** variables.py l.1803-1823, apply_ebc with offset 0 *)
Definition apply_ebc (em : eqmap) (vec : list V) : list V :=
  let v1 := put vec (em_ebc em) (em_val em) in
  put v1 (em_master em) (take vzero v1 (em_slave em)).

(** variables.py l.1842-1859, has_ebc; [close] stands for [nm.allclose] on items *)
Definition has_ebc (close : V -> V -> bool) (em : eqmap) (vec : list V) : bool :=
  let allclose := fun a b => forallb (fun p => close (fst p) (snd p)) (combine a b) in
  allclose (take vzero vec (em_ebc em)) (em_val em)
  && allclose (take vzero vec (em_master em)) (take vzero vec (em_slave em)).

(** variables.py l.1861-1884, get_reduced with offset 0, follow_epbc = False *)
Definition get_reduced (em : eqmap) (vec : list V) : list V := take vzero vec (em_eqi em).

(** ** With arithmetic on values *)
Variable vadd : V -> V -> V.
Variable vone : V.
Variable vmul : V -> V -> V.

(** linalg/utils.py l.251-261, assemble1d: [ar_out[indx] += ar_in], duplicates
    summed.  Modelled as the sequential accumulation; the summation order of
    the duplicates inside scipy is irrelevant in exact arithmetic. *)
Fixpoint assemble1d (out : list V) (indx : list nat) (ins : list V) : list V :=
  match indx, ins with
  | i :: indx', x :: ins' => assemble1d (upd out i (vadd (nth i out vzero) x)) indx' ins'
  | _, _ => out
  end.

(** variables.py l.1861-1884, get_reduced with follow_epbc = True *)
Definition get_reduced_follow (em : eqmap) (vec : list V) : list V :=
  let r := take vzero vec (em_eqi em) in
  let mk := filter (fun p => (0 <=? nth (snd p) (em_eq em) 0)%Z) (combine (em_master em) (em_slave em)) in
  assemble1d r (map (fun p => Z.to_nat (nth (snd p) (em_eq em) 0%Z)) mk)
               (take vzero vec (map fst mk)).

(** dof_info.py l.502-531, get_operator: the coordinates of the ones of the
    COO matrix R of the shape (n_dof, n_eq). *)
Definition get_operator (em : eqmap) : list (nat * nat) :=
  combine (em_eqi em) (seq 0 (em_neq em)) ++
  map (fun p => (fst p, Z.to_nat (nth (snd p) (em_eq em) 0%Z)))
      (filter (fun p => (0 <=? nth (snd p) (em_eq em) 0)%Z) (combine (em_master em) (em_slave em))).

End EqMap.
Arguments Ebc {V} active rnods dofs vals.
Arguments Epbc {V} active mnods snods i1 i2 dofs0 dofs1.
