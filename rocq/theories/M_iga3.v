(** Model of sfepy/discrete/iga/iga.py: combined extraction operators and the Bezier control net. *)
From Coq Require Import Reals Arith List Bool.
From Verif Require Import M_fmf M_map S_iga M_iga M_iga2.
Import ListNotations.
Open Scope R_scope.

(** iga.py l.166-215 combine_bezier_extraction: ccs[ii] = cc in the order of the loops. *)
Definition combine_bezier_extraction (degrees : list nat) (cs : list (list mat)) : nat -> mat :=
  match length cs with
  | 1%nat => fun ie => nth ie (nth 0 cs []) eye
  | _ => let ncc := map (@length mat) cs in
    fold_left (fun (ccs : nat -> mat) ic => let ii := ravel_multi_index ic ncc in
                 (fun e => if (e =? ii)%nat then combine_bezier degrees cs ic else ccs e))
      (tuples ncc) (fun _ => eye)
  end.
(** iga.py l.353-394 compute_bezier_control: (bezier_control_points, bezier_weights); rows are
    assigned element by element. *)
Definition compute_bezier_control (n_el n_efun : nat) (cps : nat -> nat -> R) (weights : nat -> R)
    (ccs : nat -> mat) (conn bconn : nat -> nat -> nat) : (nat -> nat -> R) * (nat -> R) :=
  fold_left (fun '(bcps, bws) ie =>
      let bew j := sm n_efun (fun a => ccs ie a j * weights (conn ie a)) in
      let becp j i := 1 / bew j * sm n_efun (fun a => ccs ie a j * (weights (conn ie a) * cps (conn ie a) i)) in
      (fold_left (fun (f : nat -> nat -> R) j => (fun b i => if (b =? bconn ie j)%nat then becp j i else f b i)) (seq 0 n_efun) bcps,
       fold_left (fun (f : nat -> R) j => (fun b => if (b =? bconn ie j)%nat then bew j else f b)) (seq 0 n_efun) bws))
    (seq 0 n_el) ((fun _ _ => 0), (fun _ => 0)).
