(** Model of funpy/norms.py for functions of type 'cheb' (states: VsModel).  [None] is an exception. *)
From Coq Require Import Reals ZArith List Arith Bool.
From Verif Require Import Base ChebModel ChebModel2 FunModel.
Import ListNotations.
Open Scope R_scope.

(** u * scale for a number: fun.py 166-185 with ufuncs.pyx 180-193. *)
Definition fun_times_number (F : Fun) (s : R) : option Fun := if dom_check F F then wrap F (multiply_number (onefun F) s) else None.
(** numpy: the size of a matrix given as the list of its rows, and the sum of its diagonal (the entries i,i that exist). *)
Definition msize (M : list (list R)) : nat := (length M * length (hd [] M))%nat.
Definition mtrace (M : list (list R)) : R := rsum (Nat.min (length M) (length (hd [] M))) (fun i => nth i (nth i M []) 0).
(** norms.py 28-39: the unweighted branch and the extraction of the result (a 1 x 1 array is read as its entry). *)
Definition sprod_result (M : list (list R)) : R := if Nat.ltb 1 (msize M) then mtrace M else nth 0 (nth 0 M []) 0.
(** norms.py 17-39, sprod; scale = None is [None].  Weighted (18-26): innerw of vectorspaces is base_state.py 383-396, whose
    first statement reads state1.fshape; a Fun has no such attribute and fun.py 124-126 raises. *)
Definition sprod (F G : Fun) (weighted : bool) (scale : option R) : option R :=
  if weighted then None else
  match scale with
  | None => option_map sprod_result (fun_inner F G)
  | Some s =>
    match fun_times_number F s, fun_times_number G s with
    | Some F', Some G' => option_map sprod_result (fun_inner F' G')
    | _, _ => None
    end
  end.
