(** linalg/bem_solve.py and linalg/bemw_solve.py.  Vectors are lists of real
    numbers, indices below 0 count from the end: b[:-1] is [removelast b], b[-1]
    is [last b 0]. *)
From Coq Require Import Reals List Arith Bool.
From Verif Require Import Base LASpec.
Import ListNotations.
Open Scope R_scope.

Definition vadd (a b : list R) : list R := map (fun p => fst p + snd p) (combine a b).
Definition vsub (a b : list R) : list R := map (fun p => fst p - snd p) (combine a b).
Definition vscal (k : R) (a : list R) : list R := map (fun x => k * x) a.

(** the inner solver (qr_solve.py, QR): the methods BEM uses *)
Record solver := { s_solve : list R -> list R; s_adj : list R -> list R; s_null : list R * list R;
                   s_part : list R -> list R; s_part_adj : list R -> list R; s_sing : bool; s_det : R }.

(** bem_solve.py 29-42, 68-76: the object, with the stored data (prepare runs
    only for non-singular A) *)
Record bem := { e_s : solver; e_b : list R; e_c : list R; e_d : R;
                e_gamma : list R; e_delta : R; e_beta : list R; e_eta : R }.
Definition bem_new (s : solver) (b c : list R) (d : R) : bem :=
  if s_sing s then {| e_s := s; e_b := b; e_c := c; e_d := d; e_gamma := []; e_delta := 0; e_beta := []; e_eta := 0 |}
  else let gamma := s_adj s b in let beta := s_solve s c in
       {| e_s := s; e_b := b; e_c := c; e_d := d; e_gamma := gamma; e_delta := d - dotp gamma c; e_beta := beta; e_eta := d - dotp b beta |}.
(** 78-86 *)
Definition update_row (e : bem) (b : list R) (d : R) : bem :=
  if s_sing (e_s e) then {| e_s := e_s e; e_b := b; e_c := e_c e; e_d := d; e_gamma := e_gamma e; e_delta := e_delta e; e_beta := e_beta e; e_eta := e_eta e |}
  else let gamma := s_adj (e_s e) b in
       {| e_s := e_s e; e_b := b; e_c := e_c e; e_d := d; e_gamma := gamma; e_delta := d - dotp gamma (e_c e); e_beta := e_beta e; e_eta := d - dotp b (e_beta e) |}.
(** 88-96 *)
Definition update_col (e : bem) (c : list R) (d : R) : bem :=
  if s_sing (e_s e) then {| e_s := e_s e; e_b := e_b e; e_c := c; e_d := d; e_gamma := e_gamma e; e_delta := e_delta e; e_beta := e_beta e; e_eta := e_eta e |}
  else let beta := s_solve (e_s e) c in
       {| e_s := e_s e; e_b := e_b e; e_c := c; e_d := d; e_gamma := e_gamma e; e_delta := d - dotp (e_gamma e) c; e_beta := beta; e_eta := d - dotp (e_b e) beta |}.
(** 65-66 *)
Definition bem_det (e : bem) : R := s_det (e_s e) * (e_d e - dotp (e_b e) (e_beta e)).
(** 98-105 and 107-114 *)
Definition nullspace (e : bem) : list R :=
  let y1 := 1 / e_delta e in
  let w := vscal (-1) (s_solve (e_s e) (vscal y1 (e_c e))) in
  let y2 := (y1 * e_d e + dotp (e_b e) w) / e_eta e in
  vadd w (vscal y2 (e_beta e)) ++ [y1 - y2].
Definition nullspace_adj (e : bem) : list R :=
  let y1 := 1 / e_eta e in
  let w := vscal (-1) (s_adj (e_s e) (vscal y1 (e_b e))) in
  let y2 := (y1 * e_d e + dotp (e_c e) w) / e_delta e in
  vadd w (vscal y2 (e_gamma e)) ++ [y1 - y2].
(** 116-139 and 141-154 *)
Definition solve_singular (e : bem) (r : list R) : list R :=
  let '(phi, psi) := s_null (e_s e) in
  let f := removelast r in
  let z := dotp psi f / dotp psi (e_c e) in
  let xp := s_part (e_s e) (vsub f (vscal z (e_c e))) in
  let al := (last r 0 - e_d e * z - dotp (e_b e) xp) / dotp (e_b e) phi in
  vadd xp (vscal al phi) ++ [z].
Definition solve_singular_adj (e : bem) (r : list R) : list R :=
  let '(phi, psi) := s_null (e_s e) in
  let f := removelast r in
  let z := dotp phi f / dotp phi (e_b e) in
  let xp := s_part_adj (e_s e) (vsub f (vscal z (e_b e))) in
  let al := (last r 0 - e_d e * z - dotp (e_c e) xp) / dotp (e_c e) psi in
  vadd xp (vscal al psi) ++ [z].
(** 156-163 and 165-173 *)
Definition solve_nonsing (e : bem) (r : list R) : list R :=
  let f := removelast r in let h := last r 0 in
  let y1 := (h - dotp (e_gamma e) f) / e_delta e in
  let w := s_solve (e_s e) (vsub f (vscal y1 (e_c e))) in
  let y2 := (h - y1 * e_d e - dotp (e_b e) w) / e_eta e in
  vsub w (vscal y2 (e_beta e)) ++ [y1 + y2].
Definition solve_nonsing_adj (e : bem) (r : list R) : list R :=
  let f := removelast r in let h := last r 0 in
  let y1 := (h - dotp (e_beta e) f) / e_eta e in
  let w := s_adj (e_s e) (vsub f (vscal y1 (e_b e))) in
  let y2 := (h - y1 * e_d e - dotp (e_c e) w) / e_delta e in
  vsub w (vscal y2 (e_gamma e)) ++ [y1 + y2].
(** 175-179 *)
Definition bem_solve (e : bem) (r : list R) : list R := if s_sing (e_s e) then solve_singular e r else solve_nonsing e r.
Definition bem_solve_adj (e : bem) (r : list R) : list R := if s_sing (e_s e) then solve_singular_adj e r else solve_nonsing_adj e r.
(** 181-207 *)
Definition bem_solve_null (e : bem) : list R :=
  if s_sing (e_s e) then fst (s_null (e_s e)) ++ [0]
  else let y1 := 1 / e_delta e in
       let y2 := (1 + y1 * (dotp (e_b e) (e_beta e) - e_d e)) / e_eta e in
       vscal (y1 + y2) (vscal (-1) (e_beta e) ++ [1]).
Definition bem_solve_null_adj (e : bem) : list R :=
  if s_sing (e_s e) then snd (s_null (e_s e)) ++ [0]
  else let y1 := 1 / e_eta e in
       let y2 := (1 + y1 * (dotp (e_c e) (e_gamma e) - e_d e)) / e_delta e in
       vscal (y1 + y2) (vscal (-1) (e_gamma e) ++ [1]).
(** 209-233 *)
Definition bem_solve_zero (e : bem) (f : list R) : list R :=
  if s_sing (e_s e) then
    let '(phi, psi) := s_null (e_s e) in
    let z := dotp psi f / dotp psi (e_c e) in
    let xp := s_part (e_s e) (vsub f (vscal z (e_c e))) in
    let al := - (e_d e * z + dotp (e_b e) xp) / dotp (e_b e) phi in
    vadd xp (vscal al phi) ++ [z]
  else
    let y1 := - dotp (e_gamma e) f / e_delta e in
    let w := s_solve (e_s e) (vsub f (vscal y1 (e_c e))) in
    let y2 := - (y1 * e_d e + dotp (e_b e) w) / e_eta e in
    vsub w (vscal y2 (e_beta e)) ++ [y1 + y2].
(** 235-269 *)
Definition bem_min_norm (e : bem) (f : list R) : list R :=
  let x := bem_solve_zero e f in
  let t := bem_solve_null e in
  vsub x (vscal (dotp x t / dotp t t) t).

(** ** bemw_solve.py: m borders.  Border k has row bs[k] and column cs[k] of
    length n+k and corner ds[k]. *)
Record bemw := { w_s : solver; w_n : nat; w_b : list (list R); w_c : list (list R); w_d : list R; w_st : nat -> nat -> R }.
Definition w_m (e : bemw) : nat := length (w_b e).
(** 76, 83-91: the array storage (m x (m+2n+1)); assignment to a slice of a row *)
Definition set_slice (st : nat -> nat -> R) (row from : nat) (v : list R) : nat -> nat -> R :=
  fun i j => if Nat.eqb i row && Nat.leb from j && Nat.ltb j (from + length v) then nth (j - from) v 0 else st i j.
Definition get_slice (st : nat -> nat -> R) (row from to : nat) : list R := mk (to - from) (fun k => st row (from + k)%nat).
(** 113-125: the lookup functions *)
Definition st_delta (st : nat -> nat -> R) (k : nat) : R := st k 0%nat.
Definition st_eps (st : nat -> nat -> R) (k : nat) : R := st k 1%nat.
Definition st_v (n m : nat) (st : nat -> nat -> R) (k : nat) : list R :=
  let r := (m - k - 1)%nat in get_slice st r (2 + r + n) (m + 2 * n + 1).
Definition st_w (n : nat) (st : nat -> nat -> R) (k : nat) : list R := get_slice st k 2 (n + k + 2).
(** x[:k] -= a, x[k] = s *)
Definition sub_prefix (x a : list R) : list R := vsub (firstn (length a) x) a ++ skipn (length a) x.
Definition set_at (x : list R) (k : nat) (s : R) : list R := firstn k x ++ s :: skipn (S k) x.
Section detail.
  Variables (core : list R -> list R) (n : nat) (rows cols : nat -> list R) (d : nat -> R)
            (vv ww : nat -> list R) (dl ep : nat -> R).
  (** 141-152: k = i-1 for i = j, ..., 1; y as a function *)
  Fixpoint down (j : nat) (x : list R) (y : nat -> R) : list R * (nat -> R) :=
    match j with
    | O => (x, y)
    | S k =>
        let yk := (nth (n + k) x 0 - dotp (ww k) (firstn (n + k) x)) / ep k in
        let x := sub_prefix x (vscal yk (cols k)) in
        let x := set_at x (n + k) (nth (n + k) x 0 - d k * yk) in
        down k x (fun i => if Nat.eqb i k then yk else y i)
    end.
  (** 157-164: k = 0, ..., j-1 *)
  Definition up_step (y : nat -> R) (x : list R) (k : nat) : list R :=
    let ypp := (nth (n + k) x 0 - dotp (rows k) (firstn (n + k) x)) / dl k in
    let x := set_at x (n + k) (y k) in
    let x := sub_prefix x (vscal ypp (vv k)) in
    set_at x (n + k) (nth (n + k) x 0 + ypp).
  (** 127-166 *)
  Definition detail (j : nat) (x : list R) : list R :=
    let '(x, y) := down j x (fun _ => 0) in
    let x := core (firstn n x) ++ skipn n x in
    fold_left (up_step y) (seq 0 j) x.
End detail.
Definition solve_detail (e : bemw) (st : nat -> nat -> R) (j : nat) (x : list R) : list R :=
  detail (s_solve (w_s e)) (w_n e) (fun k => nth k (w_b e) []) (fun k => nth k (w_c e) []) (fun k => nth k (w_d e) 0)
         (st_v (w_n e) (w_m e) st) (st_w (w_n e) st) (st_delta st) (st_eps st) j x.
(** 168-208 *)
Definition solve_adj_detail (e : bemw) (st : nat -> nat -> R) (j : nat) (x : list R) : list R :=
  detail (s_adj (w_s e)) (w_n e) (fun k => nth k (w_c e) []) (fun k => nth k (w_b e) []) (fun k => nth k (w_d e) 0)
         (st_w (w_n e) st) (st_v (w_n e) (w_m e) st) (st_eps st) (st_delta st) j x.
(** 78-91: one pass of the loop of prepare *)
Definition prepare_step (e : bemw) (st : nat -> nat -> R) (k : nat) : nat -> nat -> R :=
  let n := w_n e in let m := w_m e in
  let b := nth k (w_b e) [] in let c := nth k (w_c e) [] in let d := nth k (w_d e) 0 in
  let vk := solve_detail e st k c in
  let r := (m - k - 1)%nat in
  let st := set_slice st r (2 + r + n) vk in
  let st := set_slice st k 0 [d - dotp b vk] in
  let wk := solve_adj_detail e st k b in
  let st := set_slice st k 2 wk in
  set_slice st k 1 [d - dotp c wk].
(** 50-91 (np.empty: any contents [st0]) *)
Definition prepare (e : bemw) (st0 : nat -> nat -> R) : nat -> nat -> R := fold_left (prepare_step e) (seq 0 (w_m e)) st0.
(** 29-46: the constructor for a solver that is not singular *)
Definition bemw_new (s : solver) (n : nat) (bs cs : list (list R)) (ds : list R) (st0 : nat -> nat -> R) : bemw :=
  let e := {| w_s := s; w_n := n; w_b := bs; w_c := cs; w_d := ds; w_st := st0 |} in
  {| w_s := s; w_n := n; w_b := bs; w_c := cs; w_d := ds; w_st := prepare e st0 |}.
Definition set_nth {A} (l : list A) (j : nat) (a : A) : list A := firstn j l ++ a :: skipn (S j) l.
(** 93-111 (prepare allocates a new array) *)
Definition bemw_update_row (e : bemw) (j : nat) (b : list R) (d : R) (st0 : nat -> nat -> R) : bemw :=
  bemw_new (w_s e) (w_n e) (set_nth (w_b e) j b) (w_c e) (set_nth (w_d e) j d) st0.
Definition bemw_update_col (e : bemw) (j : nat) (c : list R) (d : R) (st0 : nat -> nat -> R) : bemw :=
  bemw_new (w_s e) (w_n e) (w_b e) (set_nth (w_c e) j c) (set_nth (w_d e) j d) st0.
(** 210-232 *)
Definition bemw_solve (e : bemw) (r : list R) : list R := solve_detail e (w_st e) (w_m e) r.
Definition bemw_solve_adj (e : bemw) (r : list R) : list R := solve_adj_detail e (w_st e) (w_m e) r.
Definition bemw_solve_null (e : bemw) : list R := bemw_solve e (zeros (w_n e + w_m e - 1) ++ [1]).
Definition bemw_solve_null_adj (e : bemw) : list R := bemw_solve_adj e (zeros (w_n e + w_m e - 1) ++ [1]).
Definition bemw_solve_zero (e : bemw) (f : list R) : list R := bemw_solve e (f ++ [0]).
Definition bemw_solve_zero_adj (e : bemw) (f : list R) : list R := bemw_solve_adj e (f ++ [0]).
(** 234-263 *)
Definition bemw_min_norm (e : bemw) (f : list R) : list R :=
  let x := bemw_solve_zero e f in let t := bemw_solve_null e in vsub x (vscal (dotp x t / dotp t t) t).
