(** Model of file names of results: sfepy/base/ioutils.py, sfepy/discrete/problem.py,
    sfepy/homogenization/recovery.py.  A file name is a list of code points. *)
From Coq Require Import QArith.
From Verif Require Import Base M_ts M_io.
Set Implicit Arguments.
Open Scope nat_scope.

Definition slash : nat := 47.   (* '/' *)
Definition dot : nat := 46.     (* '.' *)
Definition dash : nat := 45.    (* '-' *)

(** ** os.path (posixpath) *)
(** The prefix of [s] up to and including its last [c], and the rest:
    [i = s.rfind(c) + 1; s[:i], s[i:]]. *)
Fixpoint rcut (c : nat) (s : str) : str * str :=
  match s with
  | [] => ([], [])
  | x :: t => let '(a, b) := rcut c t in
              match a with
              | [] => if x =? c then ([x], b) else ([], x :: b)
              | _ => (x :: a, b)
              end
  end.
(** [s.rstrip(c)] *)
Definition lstrip_c (c : nat) : str -> str := lstrip (Nat.eqb c).
Definition rstrip_c (c : nat) (s : str) : str := rev (lstrip_c c (rev s)).
(** posixpath.split(): [if head and head != sep*len(head): head = head.rstrip(sep)] *)
Definition path_split (p : str) : str * str :=
  let '(head, tail) := rcut slash p in
  (if forallb (Nat.eqb slash) head then head else rstrip_c slash head, tail).
(** posixpath.splitext() (genericpath._splitext): the last dot after the last
    slash splits the name, if there is a character other than a dot in front of it. *)
Definition splitext (p : str) : str * str :=
  let '(head, tail) := rcut slash p in
  let '(a, e) := rcut dot tail in      (* a = everything up to and including the last dot *)
  match a with
  | [] => (p, [])
  | _ => let b := removelast a in
         if forallb (Nat.eqb dot) b then (p, []) else (head ++ b, dot :: e)
  end.
(** posixpath.join(a, b) *)
Definition path_join (a b : str) : str :=
  match b with
  | c :: _ => if c =? slash then b
              else if (match a with [] => true | _ => last a 0 =? slash end) then a ++ b else a ++ slash :: b
  | [] => if (match a with [] => true | _ => last a 0 =? slash end) then a else a ++ [slash]
  end.
(** posixpath.basename() *)
Definition basename (p : str) : str := snd (rcut slash p).

(** ioutils.py l.136-137 *)
Definition get_trunk (filename : str) : str := fst (splitext (basename filename)).
(** ioutils.py l.139-168 *)
Definition edit_filename (filename prefix suffix : str) (new_ext : option str) : str :=
  let '(path, filename) := path_split filename in
  let '(base, ext) := splitext filename in
  let new := match new_ext with
             | None => prefix ++ base ++ suffix ++ ext
             | Some e => prefix ++ base ++ suffix ++ e
             end in
  path_join path new.

(** ** Problem.get_output_name(), get_restart_filename() *)
Fixpoint join_dots (l : list str) : str :=       (* '.'.join(l) *)
  match l with [] => [] | [x] => x | x :: t => x ++ dot :: join_dots t end.
(** The output settings of a problem; [o_sequence] is
    [output_modes[output_format] == 'sequence'] (problem.py l.438-440). *)
Record outconf := mkOut { o_dir : str; o_trunk : str; o_format : str; o_sequence : bool }.
(** problem.py l.2033-2054; [mode] is None or whether it is 'sequence'. *)
Definition get_output_name (o : outconf) (suffix extra : option str) (mode : option bool) : str :=
  let out := path_join (o_dir o) (o_trunk o) in
  let out := match suffix with
             | None => out
             | Some s => if (match mode with None => o_sequence o | Some m => m end) then join_dots [out; s] else out
             end in
  match extra with
  | Some e => join_dots [out; e; o_format o]
  | None => join_dots [out; o_format o]
  end.
(** [ts.suffix % ts.step]: the digits as characters. *)
Definition step_str (n_digit : nat) (k : N) : str := map (fun d => 48 + N.to_nat d) (format_step n_digit k).
Definition s_restart : str := [114; 101; 115; 116; 97; 114; 116].   (* 'restart' *)
Definition s_h5 : str := [104; 53].                                  (* 'h5' *)
(** problem.py l.2061-2077; [ts] is None or (ts.n_digit, ts.step). *)
Definition get_restart_filename (o : outconf) (ts : option (nat * N)) : str :=
  let suffix := match ts with None => s_restart | Some (w, k) => s_restart ++ dash :: step_str w k end in
  let aux := get_output_name o None (Some suffix) None in
  let iext := length aux - length (dot :: o_format o) in
  firstn iext aux ++ dot :: s_h5.

(** recovery.py l.17-27 [get_output_suffix]; [wi] is the width of the element
    format ([None] for [format = None], i.e. a mesh with one element: TypeError). *)
Definition get_output_suffix (iel : N) (w : nat) (step : N) (step_iel : bool) (wi : option nat) (is_h5 : bool) : res str :=
  match wi with
  | None => Err TypeError
  | Some wi =>
      if is_h5 then Ok (step_str wi iel)
      else if step_iel then Ok (join_dots [step_str w step; step_str wi iel])
      else Ok (join_dots [step_str wi iel; step_str w step])
  end.
(** ioutils.py l.171-197 [get_print_info(n_step, fill='0')]: the width, None if format is None. *)
Definition get_print_info0 (n : Z) : option nat := if (1 <? n)%Z then Some (get_print_info n) else None.
(** recovery.py l.305, l.402, l.21: the suffixes used for a mesh with [n_el] cells. *)
Definition recovery_suffix (n_el : Z) (iel : N) (n_step : Z) (step : N) (step_iel is_h5 : bool) : res str :=
  get_output_suffix iel (get_print_info n_step) step step_iel (get_print_info0 n_el) is_h5.

(** ** make_is_save (problem.py l.33-73) for an array of save times; time
    [t] and step size [d] of a step; [eps] is 1e-14. *)
Definition is_save (eps : Q) (save_times : list Q) (ilast : nat) (t d : Q) : bool * nat :=
  if (ilast <? length save_times) && Qle_bool (nth ilast save_times 0%Q) (t + eps * d)%Q then (true, S ilast)
  else (false, ilast).
(** The answers for a run of steps; reset() sets [ilast] to 0. *)
Fixpoint is_save_run (eps : Q) (save_times : list Q) (ilast : nat) (steps : list (Q * Q)) : list bool :=
  match steps with
  | [] => []
  | (t, d) :: r => let '(b, i) := is_save eps save_times ilast t d in b :: is_save_run eps save_times i r
  end.
