(** Model: sfepy/homogenization/engine.py - the requirements of homogenized
    coefficients, the sequential and the multi-process workers.

    The names of dictionary keys are pairs (name, chunk tag), where the chunk
    tag [Some i] stands for the suffix '|ch:i'; a requirement is a pair
    (is_coef, key), with is_coef for the prefix 'c.'.  Names of correctors
    starting by 'c.' or names containing '|ch:' are not modelled. *)
From Verif Require Import Base.
Set Implicit Arguments.
Open Scope nat_scope.

Definition key := (nat * option nat)%type.
Definition name := (bool * key)%type.
Lemma name_dec : forall x y : name, {x = y} + {x <> y}.
Proof. repeat decide equality. Defined.
Lemma key_dec : forall x y : key, {x = y} + {x <> y}.
Proof. repeat decide equality. Defined.
Definition mem (x : name) (l : list name) : bool := if in_dec name_dec x l then true else false.

(** Dictionaries; the keys of the infos are unique, the item is the list of
    requirements (rargs.get('requires', [])). *)
Definition info := list (key * list name).
Fixpoint look {A} (k : key) (d : list (key * A)) : option A :=
  match d with
  | [] => None
  | (k', a) :: t => if key_dec k k' then Some a else look k t
  end.

(** l.11-36, insert_sub_reqs(); [req_info] maps the names (without the prefix)
    to their requirements, [fuel] bounds the depth of the recursion. *)
Definition add_name (x : name) (l : list name) : list name := if mem x l then l else l ++ [x].
Fixpoint insert_sub_reqs (fuel : nat) (reqs levels : list name) (req_info : key -> option (list name)) : res (list name) :=
  match fuel with
  | 0 => Err OutOfFuel
  | S f =>
      (fix loop (reqs : list name) (all_reqs : list name) : res (list name) :=
         match reqs with
         | [] => Ok all_reqs
         | req :: t =>
             match req_info (snd req) with
             | None => Err ValueError
             | Some sub_reqs =>
                 if mem req levels then Err ValueError else
                 match sub_reqs with
                 | [] => loop t (add_name req all_reqs)
                 | _ => match insert_sub_reqs f sub_reqs (levels ++ [req]) req_info with
                        | Err e => Err e
                        | Ok sreqs =>
                            let all_reqs := all_reqs ++ filter (fun i => negb (mem i all_reqs)) sreqs in
                            loop t (add_name req all_reqs)
                        end
                 end
             end
         end) reqs []
  end.

(** l.145-163, get_sorted_dependencies(); [compute_names] are the items of
    set(compute_only or the names of all coefficients), in any order;
    reqcoef_info.update(req_info): the definitions of correctors override those
    of coefficients. *)
Definition reqcoef_info (req_info coef_info : info) (k : key) : option (list name) :=
  match look k req_info with Some r => Some r | None => look k coef_info end.
Fixpoint add_names (xs l : list name) : list name :=
  match xs with [] => l | x :: t => add_names t (add_name x l) end.
Fixpoint sorted_loop (fuel : nat) (req_info coef_info : info) (names : list key) (dep_names : list name) : res (list name) :=
  match names with
  | [] => Ok dep_names
  | k :: t =>
      match look k coef_info with
      | None => Err KeyError
      | Some requires =>
          match insert_sub_reqs fuel requires [] (reqcoef_info req_info coef_info) with
          | Err e => Err e
          | Ok deps => sorted_loop fuel req_info coef_info t (add_names (deps ++ [(true, k)]) dep_names)
          end
      end
  end.
Definition get_sorted_dependencies (fuel : nat) (req_info coef_info : info) (compute_names : list key) : res (list name) :=
  sorted_loop fuel req_info coef_info compute_names [].

(** The direct requirements used by the workers (l.282-316, l.450-454). *)
Definition requires (req_info coef_info : info) (n : name) : option (list name) :=
  if fst n then look (snd n) coef_info else look (snd n) req_info.

Section Workers.
(** Values of correctors and coefficients; a mini-application is a function of
    the direct requirements. *)
Context {V : Type}.
Definition deps := list (name * V).
Fixpoint dlook (n : name) (d : deps) : option V :=
  match d with
  | [] => None
  | (m, v) :: t => if name_dec n m then Some v else dlook n t
  end.
(** d[n] = v *)
Definition dset (d : deps) (n : name) (v : V) : deps := (n, v) :: d.
Fixpoint dlooks (ns : list name) (d : deps) : res (list V) :=
  match ns with
  | [] => Ok []
  | n :: t => match dlook n d with
              | None => Err KeyError
              | Some v => match dlooks t d with Ok l => Ok (v :: l) | Err e => Err e end
              end
  end.
Variable reqs : name -> option (list name).
Variable app : name -> list V -> V.

(** l.240-319, calculate_req(): only the direct requirements are passed. *)
Definition calculate_req (d : deps) (n : name) : res V :=
  match reqs n with
  | None => Err KeyError
  | Some l => match dlooks l d with Ok vs => Ok (app n vs) | Err e => Err e end
  end.

(** l.124-143, HomogenizationWorker.__call__(): the loop over sorted_names *)
Fixpoint seq_loop (names : list name) (d : deps) : res deps :=
  match names with
  | [] => Ok d
  | n :: t => match calculate_req d n with Ok v => seq_loop t (dset d n v) | Err e => Err e end
  end.

(** ** l.406-487, HomogenizationWorkerMulti.__call__() *)
Definition counts := list (name * Z).
Fixpoint nlook (n : name) (c : counts) : option Z :=
  match c with
  | [] => None
  | (m, v) :: t => if name_dec n m then Some v else nlook n t
  end.
Definition nreqs (n : name) : list name := match reqs n with Some l => l | None => [] end.
(** l.447-461: numdeps and inverse_deps *)
Definition numdeps0 (sorted : list name) : counts := map (fun n => (n, Z.of_nat (length (nreqs n)))) sorted.
Definition inverse_deps (sorted : list name) (r : name) : list name :=
  flat_map (fun n => repeat n (count_occ name_dec (nreqs n) r)) sorted.
(** numdeps[itask] -= 1 *)
Fixpoint decr (n : name) (c : counts) : res counts :=
  match c with
  | [] => Err KeyError
  | (m, v) :: t => if name_dec n m then Ok ((m, (v - 1)%Z) :: t)
                   else match decr n t with Ok t' => Ok ((m, v) :: t') | Err e => Err e end
  end.
Fixpoint decrs (ns : list name) (c : counts) : res counts :=
  match ns with [] => Ok c | n :: t => match decr n c with Ok c' => decrs t c' | Err e => Err e end end.

(** l.472-480: the loop over the results of a wave, in the order of the tasks.
    [vals] are the results of workers.map(). *)
Fixpoint collect (sorted : list name) (tasks : list name) (vals : list V) (d : deps) (c : counts) (done : list name)
  : res (deps * counts * list name) :=
  match tasks, vals with
  | t :: tasks', v :: vals' =>
      match decrs (inverse_deps sorted t) c with
      | Err e => Err e
      | Ok c' => collect sorted tasks' vals' (dset d t v) c' (done ++ [t])
      end
  | _, _ => Ok (d, c, done)
  end.

(** The workers compute the tasks of a wave concurrently, while the main process
    already writes results of the wave to the shared dictionary: a task may see
    any items [extra] with keys among the tasks of the wave. *)
Variable extra : nat -> name -> deps.
Definition visible (w : nat) (tasks : list name) (t : name) (d : deps) : deps :=
  filter (fun p => mem (fst p) tasks) (extra w t) ++ d.
Fixpoint run_tasks (w : nat) (all tasks : list name) (d : deps) : res (list V) :=
  match tasks with
  | [] => Ok []
  | t :: ts => match calculate_req (visible w all t d) t with
               | Err e => Err e
               | Ok v => match run_tasks w all ts d with Ok l => Ok (v :: l) | Err e => Err e end
               end
  end.
(** l.463-480: the waves; [remaining] counts the tasks to do, [done] records the
    executed tasks; [tasks] keeps its value when numdeps is empty. *)
Fixpoint waves (fuel w : nat) (sorted tasks : list name) (remaining : Z) (d : deps) (c : counts) (done : list name)
  : res (deps * list name) :=
  if (remaining >? 0)%Z then
    match fuel with
    | 0 => Err OutOfFuel
    | S f =>
        let '(tasks, c) :=
          match c with
          | [] => (tasks, c)
          | _ => (map fst (filter (fun p => snd p =? 0)%Z c), filter (fun p => snd p >? 0)%Z c)
          end in
        match run_tasks w tasks tasks d with
        | Err e => Err e
        | Ok vals =>
            match collect sorted tasks vals d c done with
            | Err e => Err e
            | Ok (d, c, done) => waves f (S w) sorted tasks (remaining - Z.of_nat (length tasks)) d c done
            end
        end
    end
  else Ok (d, done).
Definition multi_call (fuel : nat) (sorted : list name) : res (deps * list name) :=
  waves fuel 0 sorted [] (Z.of_nat (length sorted)) [] (numdeps0 sorted) [].
End Workers.
Arguments deps : clear implicits.

(** ** Chunks of microstructures *)

(** l.531-541: micro_tab and store_idxs of chunk_micro_tasks(); [n] counts the
    values of range(0, num_micro, chunk_size). *)
Fixpoint chunk_loop (n : nat) (ii num_micro chunk_size : nat) (store : list nat) : list (nat * nat) * list (list nat * nat) :=
  match n with
  | 0 => ([], [])
  | S n' =>
      let jj := chunk_size + ii in
      let '(tab, st) := chunk_loop n' jj num_micro chunk_size store in
      ((ii, Nat.min num_micro jj) :: tab,
       if 0 <? length store then (map (fun k => k - ii) (filter (fun k => (ii <=? k) && (k <? jj)) store), ii) :: st else st)
  end.
(** len(range(0, n, s)) *)
Definition range_len (n s : nat) : nat := (n + s - 1) / s.
Definition chunk_micro_tab (num_micro chunk_size : nat) (store : list nat) : res (list (nat * nat) * list (list nat * nat)) :=
  if chunk_size =? 0 then Err ValueError
  else Ok (chunk_loop (range_len num_micro chunk_size) 0 num_micro chunk_size store).

(** l.325-344, process_reqs_coefs() (the requirements only) *)
Definition tag_name (i : nat) (n : name) : name := (fst n, (fst (snd n), Some i)).
Definition process_reqs_coefs (orig : info) (nchunk : nat) : info :=
  flat_map (fun p => map (fun i => ((fst (fst p), Some i), map (tag_name i) (snd p))) (seq 0 nchunk)) orig.

(** l.62-64, rm_chtag(); l.67-79, chunk_req_info() *)
Definition rm_chtag (n : name) : name := (fst n, (fst (snd n), None)).
Definition chunk_req_info (k : key) (d : info) : option (list name) :=
  match snd k with
  | Some i => match look (fst k, None) d with Some l => Some (map (tag_name i) l) | None => None end
  | None => look k d
  end.
Definition chunk_requires (req_info coef_info : info) (n : name) : option (list name) :=
  if fst n then chunk_req_info (snd n) coef_info else chunk_req_info (snd n) req_info.

(** l.165-222, calculate() with micro_states: the list of the results for the
    microstructures of the chunk (or all of them); [capp n im data]: the
    mini-application [n] for the microstructure im (its coordinates and state)
    with the im-th items of the data.  The update of coordinates by a mini
    application named 'update_coors' is not modelled. *)
Section Micro.
Context {V : Type}.
Variable dflt : V.
Variable mapp : name -> nat -> list V -> V.
Variable num_micro : nat.
Variable tab : list (nat * nat).
Definition micro_range (n : name) : nat * nat :=
  match snd (snd n) with None => (0, num_micro) | Some c => nth c tab (0, 0) end.
Definition micro_app (n : name) (data : list (list V)) : list V :=
  let '(a, b) := micro_range n in
  map (fun im => mapp (rm_chtag n) (a + im) (map (fun l => nth im l dflt) data)) (seq 0 (b - a)).

(** l.559-581, dechunk_reqs_coefs() for the key [n] *)
Definition dechunk (d : deps (list V)) (nchunk : nat) (n : name) : res (list V) :=
  match dlooks (map (fun i => tag_name i n) (seq 0 nchunk)) d with
  | Ok ls => Ok (concat ls)
  | Err e => Err e
  end.
End Micro.

(** ** Stored microstructures: l.198-213, the global numbers of the saved
    results of a corrector for the microstructures 0..n-1 of a (local) state;
    [store_idxs] is the attribute of the mini-application, if any. *)
Definition saved (store_idxs : option (list nat * nat)) (n : nat) : list nat :=
  match store_idxs with
  | None => []
  | Some (idxs, first) => map (fun im => first + im) (filter (fun im => existsb (Nat.eqb im) idxs) (seq 0 n))
  end.
(** l.128-131: the sequential worker sets (store_micro_idxs, 0). *)
Definition seq_saved (store : list nat) (num_micro : nat) : list nat := saved (Some (store, 0)) num_micro.
(** l.288-294, l.452-454: the multi-process worker passes the original req_info to
    calculate_req(); the items 'store_idxs' are in req_info_ch only. *)
Definition multi_saved (st : list (list nat * nat)) (tab : list (nat * nat)) : list nat :=
  flat_map (fun p => saved None (snd p - fst p)) tab.
(** What the chunked definitions ask for (process_reqs_coefs(), l.338-342). *)
Definition chunk_saved (st : list (list nat * nat)) (tab : list (nat * nat)) : list nat :=
  concat (map (fun q => saved (Some (fst q)) (snd (snd q) - fst (snd q))) (combine st tab)).
