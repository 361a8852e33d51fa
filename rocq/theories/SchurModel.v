(** Model of linalg/schur_solve.py: LinearSolverNGSchur, and of linalg/fold_solve.py,
    linalg/exact_linear_solver.py, newton/newton_gauss.py.  A state is a function (an element
    of a real vector space X with inner product [ip]) and a number; right sides live in Y.
    Exact real arithmetic; namespaces and weights of states are those of VsModel.v (weights 1). *)
From Coq Require Import String Reals List Arith Bool.
From Coquelicot Require Import Coquelicot.
From Verif Require Import Base.
Import ListNotations.
Open Scope R_scope.

Section schur.
  Context {X Y : ModuleSpace R_Ring} (ip : X -> X -> R).
  (** 85-94, solve_core: the sparse factorisation, the preconditioner, the projection and
      to_function as one map *)
  Context (core : Y -> X).
  Definition st := (X * R)%type.
  Definition st_ip (s t : st) : R := ip (fst s) (fst t) + snd s * snd t.
  (** base_state.py, norm and normalize *)
  Definition st_nrm (s : st) : R := sqrt (st_ip s s).
  Definition st_unit (s : st) : st := (scal (/ st_nrm s) (fst s), / st_nrm s * snd s).
  Definition st_minus (s t : st) : st := (minus (fst s) (fst t), snd s - snd t).
  (** 79-80 and 109: tangent.a - sprod(tangent.u, W) *)
  Definition schur_comp (t : st) (W : X) : R := snd t - ip (fst t) W.
  (** 106-119, new_tangent *)
  Definition new_tangent_raw (W : X) (t : st) : st :=
    let d_a := - (ip (fst t) (fst t) + ip (fst t) (scal (snd t) W)) / schur_comp t W in
    let d_u := plus (fst t) (scal (snd t - d_a) W) in
    st_minus t (d_u, d_a).
  Definition new_tangent (W : X) (t : st) : st := st_unit (new_tangent_raw W t).
  (** 54-80, __init__: W and the tangent *)
  Definition ng_W (Fa : Y) : X := core Fa.
  Definition ng_tangent (Fa : Y) (old : st) : st := new_tangent (ng_W Fa) old.
  (** 96-104, solve *)
  Definition ng_solve (Fa : Y) (old : st) (rhs : Y) : st :=
    let T := ng_tangent Fa old in
    let delta := core rhs in
    let d_a := ip (fst T) delta / schur_comp T (ng_W Fa) in
    (minus delta (scal d_a (ng_W Fa)), d_a).
  (** 121-139, bif_pt for a flattened vector b: G and tau; C = (C_u, C_l) *)
  Definition bif_G (Fa : Y) (old : st) (b : Y) (Bl : R) : st :=
    let T := ng_tangent Fa old in
    let p := core b in
    let Gl := (Bl - ip (fst T) p) / schur_comp T (ng_W Fa) in
    (minus p (scal Gl (ng_W Fa)), Gl).
  Definition bif_tau (Fa : Y) (old : st) (b : Y) (Bl : R) (C : st) : R :=
    let G := bif_G Fa old b Bl in -1 / (snd C * snd G + ip (fst C) (fst G)).
  (** 141-147, bif_dir *)
  Definition bif_dir (Fa : Y) (old : st) (b : Y) (Bl : R) (C : st) : st :=
    let G := bif_G Fa old b Bl in let tau := bif_tau Fa old b Bl C in
    (scal (- tau) (fst G), - tau * snd G).
End schur.
(** 10-26, prolong of a 2d array (list of columns) to n rows, and ndarray.flatten(), which
    reads row by row; [flatF] is flatten(order='F') *)
Definition prolong_col (n : nat) (c : list R) : list R := mk n (fun i => nth i c 0).
Definition flatF (A : list (list R)) : list R := concat A.
Definition flatC (n : nat) (A : list (list R)) : list R := concat (mk n (fun i => map (fun c => nth i c 0) A)).
Definition bif_vec (n : nat) (A : list (list R)) : list R := flatC n (map (prolong_col n) A).

(** fold_solve.py 18-102, FoldSolver.solve, and 104-147, solve_adj; vectors are lists,
    [null], [part], [parta] the bordered solver, [proj] the projection, [ddx] the second
    derivative (a 1d array of the same size).  numpy: an index beyond the end of a 1d array
    and a product of arrays of different sizes raise; calling None raises. *)
Definition np_dot (u v : list R) : option R := if Nat.eqb (List.length u) (List.length v) then Some (rsum (List.length u) (fun i => nth i u 0 * nth i v 0)) else None.
Definition np_zip (f : R -> R -> R) (u v : list R) : option (list R) :=
  if Nat.eqb (List.length u) (List.length v) then Some (mk (List.length u) (fun i => f (nth i u 0) (nth i v 0))) else None.
Definition np_at (u : list R) (i : nat) : option R := nth_error u i.
Definition obind {A B} (o : option A) (f : A -> option B) : option B := match o with Some a => f a | None => None end.
Notation "'let?' x := a 'in' b" := (obind a (fun x => b)) (at level 200, x pattern, b at level 200).
Section fold.
  Context (null : list R * list R) (part parta proj ddx : list R -> list R) (ddx_adj : option (list R -> list R)) (c1 c2 : list R).
  Definition fold_solve (x : list R) : option (list R) :=
    let n := List.length x in let N := ((n - 1) / 2)%nat in
    let f := firstn N x in let g := firstn N (skipn N x) in
    let '(phi, psi) := null in
    let? pf := np_dot psi f in let? pc := np_dot psi c1 in
    let z := pf / pc in
    let? fz := np_zip (fun a b => a - z * b) f c1 in
    let chi := part (proj fz) in
    let Bchi := ddx chi in let Bphi := ddx phi in
    let? gz := np_zip (fun a b => a - z * b) g c2 in
    let? r := np_zip Rminus gz Bchi in
    let? pr := np_dot psi r in let? pB := np_dot psi Bphi in
    let al := pr / pB in
    let? x := np_zip (fun a b => a + al * b) chi phi in          (* the argument x is overwritten *)
    let? rb := np_zip (fun a b => a - al * b) r Bphi in
    let eta := part (proj rb) in
    let? xh := np_at x (n - 1) in
    let? pe := np_dot phi eta in let? pp := np_dot phi phi in
    let be := (xh - pe) / pp in
    let? y := np_zip (fun a b => a + be * b) eta phi in
    Some (x ++ y ++ [z]).
  Definition fold_solve_adj (x : list R) : option (list R) :=
    let n := List.length x in let N := ((n - 1) / 2)%nat in
    let f := firstn N x in let g := firstn N (skipn N x) in
    let '(phi, psi) := null in
    let? pg := np_dot phi g in let? pp := np_dot phi phi in
    let z := pg / pp in
    let? gz := np_zip (fun a b => a - z * b) g phi in
    let eta := parta (proj gz) in
    let? da := ddx_adj in                                        (* None is not callable *)
    let Beta := da eta in let Bpsi := da psi in
    let? r := np_zip Rminus f Beta in
    let? pr := np_dot phi r in let? pB := np_dot phi Bpsi in
    let al := pr / pB in
    let? y := np_zip (fun a b => a + al * b) eta psi in
    let? rb := np_zip (fun a b => a - al * b) r Bpsi in
    let chi := parta (proj rb) in
    let? xh := np_at x (n - 1) in
    let? c1x := np_dot c1 x in                                   (* x is still the whole right side *)
    let? c2e := np_dot c2 eta in let? c2p := np_dot c2 psi in
    let be := (xh - c1x - c2e) / c2p in
    let? x := np_zip (fun a b => a + be * b) chi psi in
    Some (x ++ y ++ [z]).
  (** 27-34, __init__ sets ddx_adj = None *)
End fold.

(** exact_linear_solver.py 13-43.  [lu] is the factorisation's solve (None if the matrix is
    singular); the branch 'qr' reads self.A, which is never set. *)
Definition exact_init {V : Type} (lower : string -> string) (lu : option (V -> V)) (method : string) : option (V -> V) :=
  let m := lower method in
  if String.eqb m "lu" then lu
  else if String.eqb m "qr" then None
  else None.
Definition exact_solve {V U : Type} (solver : V -> V) (proj : V -> V) (to_fun : V -> U) (b : V) : U * bool := (to_fun (proj (solver b)), true).

(** newton_gauss.py 34-94, NewtonGaussContinuationCorrector: matrix [Du | Da] (lists of rows),
    _matvec, _rmatvec; [Du] is the square matrix of the discretised derivative. *)
Definition dotr (u v : list R) : R := rsum (List.length u) (fun i => nth i u 0 * nth i v 0).
Definition mvec (M : list (list R)) (x : list R) : list R := map (fun r => dotr r x) M.
Definition mtvec (n : nat) (M : list (list R)) (y : list R) : list R := mk n (fun j => rsum (List.length M) (fun i => nth j (nth i M []) 0 * nth i y 0)).
Definition ngc_mat (Du : list (list R)) (Da : list R) : list (list R) := mk (List.length Du) (fun i => nth i Du [] ++ [nth i Da 0]).
Definition ngc_matvec (Du : list (list R)) (Da : list R) (dx : list R) : list R :=
  mk (List.length Du) (fun i => nth i (mvec Du (removelast dx)) 0 + nth i Da 0 * last dx 0).
Definition ngc_rmatvec (n : nat) (Du : list (list R)) (Da : list R) (dx : list R) : list R := mtvec n Du dx ++ [dotr Da dx].
(** newton_gauss.py 12-31, the preconditioner: to_matrix is [Du 0; 0 1]; _matvec adds the last
    entry of x to every component *)
Definition ngp_mat (n : nat) (Du : list (list R)) : list (list R) := mk (List.length Du) (fun i => nth i Du [] ++ [0]) ++ [repeat 0 n ++ [1]].
Definition ngp_matvec (Du : list (list R)) (x : list R) : list R := map (fun y => y + last x 0) (mvec Du (removelast x)).
