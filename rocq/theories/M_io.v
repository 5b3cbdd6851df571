(** Model of text and sparse matrix input/output: sfepy/base/ioutils.py. *)
From Verif Require Import Base BaseSum S_assemble.
Set Implicit Arguments.

(** ** Text files: lists of code points; [isspace] is the Unicode property used
    by [str.isspace()], [str.strip()] and [str.split()]. *)
Definition str := list nat.
Definition nl : nat := 10.      (* '\n' *)
Definition hash : nat := 35.    (* '#' *)
Section Text.
Variable isspace : nat -> bool.

(** [fd.readline()]: the line with its newline, and the rest of the file. *)
Fixpoint readline (fd : str) : str * str :=
  match fd with
  | [] => ([], [])
  | c :: t => if c =? nl then ([c], t) else let '(l, r) := readline t in (c :: l, r)
  end.
(** [s.strip()] *)
Fixpoint lstrip (s : str) : str :=
  match s with [] => [] | c :: t => if isspace c then lstrip t else s end.
Definition strip (s : str) : str := rev (lstrip (rev (lstrip s))).

(** ioutils.py l.199-224 [skip_read_line]; [fuel] bounds the number of lines
    ([S (length fd)] is enough).  Returns the string and the rest of the file. *)
Fixpoint skip_loop (fuel : nat) (no_eof : bool) (ls : str) (fd : str) : res (str * str) :=
  match fuel with
  | 0 => Err OutOfFuel
  | S f =>
      let '(line, rest) := readline fd in
      match line with
      | [] => if no_eof then Err EOFError else Ok (ls, rest)
      | _ => let ls := strip line in
             match ls with
             | c :: _ => if negb (c =? hash) then Ok (ls, rest) else skip_loop f no_eof ls rest
             | [] => skip_loop f no_eof ls rest
             end
      end
  end.
Definition skip_read_line (no_eof : bool) (fd : str) : res (str * str) := skip_loop (S (length fd)) no_eof [] fd.

(** ioutils.py l.226-236 [look_ahead_line]: the line and the file after it. *)
Definition look_ahead_line (fd : str) : str * str := (fst (readline fd), fd).

(** ioutils.py l.238-261 [read_token]: the token and the rest of the file. *)
Fixpoint token_skip (fd : str) : option (nat * str) :=          (* l.249-253 *)
  match fd with
  | [] => None
  | ch :: t => if isspace ch then token_skip t else Some (ch, t)
  end.
Fixpoint token_body (ch : nat) (fd : str) : str * str :=         (* l.255-259, [ch] is not a space *)
  match fd with
  | [] => ([ch], [])
  | c :: t => if isspace c then ([ch], t) else let '(o, r) := token_body c t in (ch :: o, r)
  end.
Definition read_token (fd : str) : str * str :=
  match token_skip fd with None => ([], []) | Some (ch, t) => token_body ch t end.
Fixpoint read_tokens (n : nat) (fd : str) : list str :=
  match n with 0 => [] | S n => let '(o, r) := read_token fd in o :: read_tokens n r end.

(** [s.split()] *)
Fixpoint split_aux (cur : str) (s : str) : list str :=
  match s with
  | [] => match cur with [] => [] | _ => [rev cur] end
  | c :: t => if isspace c then match cur with [] => split_aux [] t | _ => rev cur :: split_aux [] t end
              else split_aux (c :: cur) t
  end.
Definition split (s : str) : list str := split_aux [] s.

(** ioutils.py l.288-299 [read_list(fd, n_item, dtype)].  Conversion errors are [None]. *)
Section ReadList.
Variable V : Type.
Variable dtype : str -> option V.
Fixpoint convert (l : list str) : option (list V) :=
  match l with
  | [] => Some []
  | t :: l => match dtype t, convert l with Some v, Some vs => Some (v :: vs) | _, _ => None end
  end.
Fixpoint read_list_loop (fuel : nat) (n_item ii : nat) (vals : list (list V)) (fd : str) : res (list (list V) * str) :=
  match fuel with
  | 0 => Err OutOfFuel
  | S f =>
      if ii <? n_item then
        let '(line, rest) := readline fd in
        match convert (split line) with
        | None => Err ValueError
        | Some row => read_list_loop f n_item (ii + length row) (vals ++ [row]) rest
        end
      else if n_item <? ii then Err ValueError else Ok (vals, fd)
  end.
Definition read_list (fuel : nat) (n_item : nat) (fd : str) : res (list (list V) * str) :=
  read_list_loop fuel n_item 0 [] fd.
End ReadList.
End Text.

(** ** Sparse matrices in HDF5 files *)
Inductive fmt := CSR | CSC.
Section Sparse.
Variable V : Type.
Variables (v0 : V) (add : V -> V -> V).
Record smat := mksm { s_fmt : fmt; s_nr : nat; s_nc : nat; s_data : list V; s_indices : list nat; s_indptr : list nat }.
(** What is stored, ioutils.py l.362-371: the nodes of the group. *)
Record h5group := mkh5 { h_format : fmt; h_shape : nat * nat; h_data : list V; h_indptr : list nat; h_indices : list nat }.
(** ioutils.py l.350-376 [write_sparse_matrix_to_hdf5]; the dtype is a part of the values. *)
Definition write_sparse (m : smat) : h5group := mkh5 (s_fmt m) (s_nr m, s_nc m) (s_data m) (s_indptr m) (s_indices m).
(** [sp.csr_array((data, indices, indptr), shape)]: the length of indptr is checked. *)
Definition construct (f : fmt) (data : list V) (indices indptr : list nat) (shape : nat * nat) : res smat :=
  let n := match f with CSR => fst shape | CSC => snd shape end in
  if length indptr =? S n then Ok (mksm f (fst shape) (snd shape) data indices indptr) else Err ValueError.
(** [mtx.sort_indices()]: specified in P_io.v. *)
Variable sort_indices : smat -> smat.
(** ioutils.py l.386-438 [read_sparse_matrix_from_hdf5] (the format 'coo', which
    the writer cannot write, is omitted). *)
Definition read_sparse (g : h5group) (output_format : option fmt) : res smat :=
  let c := match output_format with None => h_format g | Some f => f end in
  do m <- construct c (h_data g) (h_indices g) (h_indptr g) (h_shape g);
  Ok (match output_format with None => m | Some _ => sort_indices m end).
End Sparse.
