(** Model of the material parameters: evaluation in quadrature points, the
    data kept between time steps, constant parameters (by region).
    Source: sfepy/discrete/materials.py (l.170-440),
    sfepy/discrete/functions.py (l.92-177),
    sfepy/discrete/common/mappings.py (l.46-75), terms/terms.py (l.1069-1073). *)
From Verif Require Import Base.
Import ListNotations.
Set Implicit Arguments.

Section Mat.
(** The value of a parameter in a point (a matrix; its shape is not
    modelled). *)
Variable V : Type.

(** Keys of [Material.datas]: [Term.get_qp_key()] = (region.name,
    integral.order), 'special', 'special_constant'; [KName]: another string
    (used as a key by mistake in [get_data_dict] below). *)
Inductive dkey := KQp (region order : nat) | KSpecial | KConst
  | KName (attr : nat).
Definition dkey_eqb (a b : dkey) : bool :=
  match a, b with
  | KQp r o, KQp r' o' => (r =? r') && (o =? o')
  | KSpecial, KSpecial => true
  | KConst, KConst => true
  | KName a, KName b => a =? b
  | _, _ => false
  end.

(** An item of [datas]: arrays (cell, point) by name, or special values. *)
Inductive payload := PQp (d : list (nat * list (list V))) | PSp (d : list (nat * V)).
Definition datas_t := list (dkey * payload).

(** dict: d.get(k), d[k] = v, names of a dict keyed by strings. *)
Fixpoint dget (d : datas_t) (k : dkey) : option payload :=
  match d with
  | [] => None
  | (k', v) :: t => if dkey_eqb k k' then Some v else dget t k
  end.
Fixpoint dset (d : datas_t) (k : dkey) (v : payload) : datas_t :=
  match d with
  | [] => [(k, v)]
  | (k', v') :: t => if dkey_eqb k k' then (k', v) :: t else (k', v') :: dset t k v
  end.
Fixpoint nget {X} (d : list (nat * X)) (n : nat) : option X :=
  match d with
  | [] => None
  | (n', v) :: t => if n =? n' then Some v else nget t n
  end.

(** A term: identity, (region, order), the names of its materials. *)
Record term := Term { t_id : nat; t_region : nat; t_order : nat; t_mats : list nat }.
(** terms.py l.1069-1073 *)
Definition qp_key (t : term) : dkey := KQp (t_region t) (t_order t).

(** The material function: [mode='qp'] (time, quadrature points of the region
    and order, term) gives arrays over the points or None; [mode='special'];
    [mode='special_constant'].  [extra_args] are part of the function. *)
Record mfun := MFun {
  f_qp : nat -> nat -> nat -> term -> res (option (list (nat * list V)));
  f_special : nat -> res (option (list (nat * V)));
  f_const : res (list (nat * V)) }.

(** [nm.reshape] of an array over all points to (n_el, n_qp). *)
Fixpoint rows (n_el n_qp : nat) (l : list V) : list (list V) :=
  match n_el with
  | 0 => []
  | S n => firstn n_qp l :: rows n n_qp (skipn n_qp l)
  end.

(** mappings.py l.55-75 ([get_shape]) and materials.py l.219-222: a single row
    is a constant, repeated for the [n_qp] points (for one "cell"). *)
Definition shape_data (n_qp : nat) (l : list V) : res (list (list V)) :=
  if 0 <? n_qp
  then match l with
       | [v] => Ok [repeat v n_qp]
       | _ => if (length l / n_qp) * n_qp =? length l
              then Ok (rows (length l / n_qp) n_qp l) else Err ValueError
       end
  else match l with [] => Ok [] | _ => Err ValueError end.

Fixpoint shape_all (n_qp : nat) (d : list (nat * list V))
  : res (list (nat * list (list V))) :=
  match d with
  | [] => Ok []
  | (n, l) :: t => do x <- shape_data n_qp l; do r <- shape_all n_qp t; Ok ((n, x) :: r)
  end.

(** materials.py l.196-225, [set_data] (the ndim check is not modelled). *)
Definition new_data (n_qp : nat) (d : option (list (nat * list V)))
  : res (list (nat * list (list V))) :=
  match d with None => Ok [] | Some d => shape_all n_qp d end.

(** A material: name, kind == 'stationary', is_constant, mode == 'user',
    flags['special_constant'], data. *)
Record material := Material { m_name : nat; m_stat : bool; m_isc : bool;
  m_user : bool; m_flagc : bool; m_datas : datas_t;
  m_special : list nat; m_cnames : list nat }.
Definition with_datas (m : material) (d : datas_t) : material :=
  Material (m_name m) (m_stat m) (m_isc m) (m_user m) (m_flagc m) d
           (m_special m) (m_cnames m).

(** Number of points per cell for (region, order). *)
Variable n_qp : nat -> nat -> nat.
Variable f : mfun.

(** materials.py l.175-194 ([iter_terms], only_new=True) interleaved with
    l.227-251 ([update_data]): an item is put into [datas] before the function
    is called; an exception leaves it there. *)
Fixpoint update_terms (ts : nat) (name : nat) (d : datas_t) (terms : list term)
  : datas_t * option err :=
  match terms with
  | [] => (d, None)
  | t :: r =>
      if negb (memb name (t_mats t)) then update_terms ts name d r
      else match dget d (qp_key t) with
      | Some _ => update_terms ts name d r
      | None =>
          let d1 := dset d (qp_key t) (PQp []) in
          match (do v <- f_qp f ts (t_region t) (t_order t) t;
                 new_data (n_qp (t_region t) (t_order t)) v) with
          | Err e => (d1, Some e)
          | Ok nd => update_terms ts name (dset d1 (qp_key t) (PQp nd)) r
          end
      end
  end.

Inductive umode := Normal | Update | Force.

(** materials.py l.330-336: what is kept before the update; [None] = return. *)
Definition kept (m : material) (mode : umode) : option datas_t :=
  match mode with
  | Force => Some []
  | Update => Some (m_datas m)
  | Normal =>
      match m_datas m with
      | [] => Some []
      | d => if m_user m || m_stat m then None
             else if m_isc m then Some d else Some []
      end
  end.

(** materials.py l.253-272, [update_special_data]. *)
Definition update_special (ts : nat) (m : material) : material * option err :=
  match dget (m_datas m) KSpecial with
  | Some _ => (m, None)
  | None =>
      match f_special f ts with
      | Err e => (m, Some e)
      | Ok None => (m, None)
      | Ok (Some s) =>
          (Material (m_name m) (m_stat m) (m_isc m) (m_user m) (m_flagc m)
             (dset (m_datas m) KSpecial (PSp s)) (map fst s ++ m_special m) (m_cnames m),
           None)
      end
  end.

(** materials.py l.274-291, [update_special_constant_data]. *)
Definition update_special_constant (m : material) : material * option err :=
  match dget (m_datas m) KConst with
  | Some _ => (m, None)
  | None =>
      if negb (m_flagc m) then (m, None)
      else match f_const f with
      | Err e => (m, Some e)
      | Ok s =>
          (Material (m_name m) (m_stat m) (m_isc m) (m_user m) (m_flagc m)
             (dset (m_datas m) KConst (PSp s)) (m_special m) (map fst s ++ m_cnames m),
           None)
      end
  end.

(** materials.py l.293-342, [time_update]. *)
Definition time_update (ts : nat) (terms : list term) (mode : umode) (m : material)
  : material * option err :=
  match kept m mode with
  | None => (m, None)
  | Some d0 =>
      let '(d, e) := update_terms ts (m_name m) d0 terms in
      let m1 := with_datas m d in
      match e with
      | Some e => (m1, Some e)
      | None =>
          let '(m2, e2) := update_special ts m1 in
          match e2 with
          | Some e => (m2, Some e)
          | None => update_special_constant m2
          end
      end
  end.

(** materials.py l.361-366, 372-382: [set_all_data], [reset]. *)
Definition set_all_data (d : datas_t) (m : material) : material :=
  Material (m_name m) (m_stat m) (m_isc m) true (m_flagc m) d (m_special m) (m_cnames m).
Definition reset (m : material) : material :=
  Material (m_name m) (m_stat m) (m_isc m) false (m_flagc m) [] [] [].
(** materials.py l.116-173: a new material. *)
Definition new_material (name : nat) (stat isc flagc : bool) : material :=
  Material name stat isc false flagc [] [] [].

(** The value of [get_data]: an array (cell, point), a special value, or the
    Python None. *)
Inductive got := GQp (a : list (list V)) | GSp (v : V) | GNone.

(** materials.py l.399-424, [_get_data] ([get_data] for a string name). *)
Definition get_data (m : material) (k : dkey) (name : nat) : res got :=
  match m_datas m with
  | [] => Err ValueError
  | _ =>
    if memb name (m_special m)
    then match dget (m_datas m) KSpecial with
         | Some (PSp s) => match nget s name with Some v => Ok (GSp v) | None => Err KeyError end
         | _ => Err KeyError
         end
    else match dget (m_datas m) k with
         | None => Err KeyError
         | Some (PQp []) => Ok GNone
         | Some (PQp d) => match nget d name with Some a => Ok (GQp a) | None => Err KeyError end
         | Some (PSp []) => Ok GNone
         | Some (PSp d) => match nget d name with Some v => Ok (GSp v) | None => Err KeyError end
         end
  end.

(** materials.py l.388-398, [get_data] for a dict of names: the loop variable
    [key] (the attribute name) hides the argument [key]. *)
Fixpoint get_data_dict (m : material) (k : dkey) (names : list (nat * nat))
  : res (list (nat * got)) :=
  match names with
  | [] => Ok []
  | (key, item) :: t =>
      do v <- get_data m (KName key) item;
      do r <- get_data_dict m k t; Ok ((key, v) :: r)
  end.
End Mat.

Arguments GNone {V}.

(** functions.py l.92-127, [ConstantFunction(values, no_tile=True)]: [qp] the
    values without a dot in the name, [sp] those with. *)
Definition constant_fun {V} (qp sp : list (nat * V)) : mfun V :=
  MFun (fun _ _ _ _ => Ok (Some (map (fun p => (fst p, [snd p])) qp)))
       (fun _ => Ok (Some sp))
       (Ok qp).

(** functions.py l.129-177, [ConstantFunctionByRegion]: the array over the
    points of a term for one parameter.  [cells r]: the cells of region r;
    [tcells]: those of the term region; [nq]: points per cell. The values of a
    parameter: region name, value. *)
Definition by_region {V} (zero : V) (cells : nat -> list nat) (tcells : list nat)
    (nq : nat) (val : list (nat * V)) : list V :=
  let matdata :=
    fold_left (fun md rv =>
      map (fun p : nat * list V =>
             if memb (fst p) (cells (fst rv)) then repeat (snd rv) nq else snd p)
          (combine tcells md))
      val (repeat (repeat zero nq) (length tcells)) in
  concat matdata.
