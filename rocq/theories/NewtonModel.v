(** Model of funpy/newton/nleq_err.py, qnerr.py, newton_standard.py and the
    dispatch of newton.py and newton_seeker.py.

    The residual, the linear solver, the inner product and the callback are
    arbitrary functions (no laws are assumed): X are the states, V the raw
    residual vectors, S the linearised systems.  Float arithmetic is real
    arithmetic; numpy.inf as a value of mue is [None].  Printed output and
    normfk (used in messages only) are left out. *)
From Coq Require Import Reals List Arith Bool Lra Lia.
From Verif Require Import Base ChebModel.
Import ListNotations.
Open Scope R_scope.

Section Newton.
Variables X V S : Type.
Variables (mksys : X -> S) (rhs : S -> X -> V) (solve : S -> V -> X * bool) (vneg : V -> V).
Variables (xadd xsub : X -> X -> X) (xscal : R -> X -> X) (xdiv : X -> R -> X) (ip : X -> X -> R).
Variable callback : S -> nat -> X -> R -> R -> bool.
Variables (tol theta_max lambda_min : R) (restricted use_qnerr : bool) (miter : nat).

(** nleq_err.py 49-50, qnerr.py 46-47: norm from the inner product. *)
Definition nrm (x : X) : R := sqrt (ip x x).

(** ** qnerr.py *)
(** qnerr.py 117-119: for i in range(1, k+1): v += <v, dx[i-1]>/sigma[i-1] dx[i]. *)
Fixpoint qn_update (v : X) (dxs : list X) (sigs : list R) : X :=
  match dxs, sigs with
  | d0 :: ((d1 :: _) as t), s0 :: st => qn_update (xadd v (xscal (ip v d0 / s0) d1)) t st
  | _, _ => v
  end.
(** qnerr.py 95-152, the main loop; [qmiter] is its miter, [itr] the counter of
    the caller, dxs and sigs the entries 0..k of dx and sigma.  The result is
    x, newton_success, k, normdx.  The callback gets v after the in-place
    division by s, because dx[k+1] is v. *)
Fixpoint qn_loop (fuel qmiter itr : nat) (sys : S) (x : X) (skip : bool) (k : nat) (dxs : list X) (sigs : list R)
    (normdx : R) (d0 : X) : option (X * bool * nat * R) :=
  match fuel with
  | O => None
  | Datatypes.S f =>
      if Nat.leb k qmiter then
        let x1 := if skip then x else xadd x (nth k dxs d0) in
        if negb skip && Rleb (nth k sigs 0) (tol * tol) then Some (x1, true, Datatypes.S k, normdx)
        else
          match solve sys (vneg (rhs sys x1)) with
          | (_, false) => Some (x1, false, k, normdx)
          | (v, true) =>
              let v' := qn_update v dxs sigs in
              let alpha := ip v' (nth k dxs d0) / nth k sigs 0 in
              let theta := sqrt (ip v' v' / nth k sigs 0) in
              let d := xdiv v' (1 - alpha) in
              let sg := ip d d in
              let ok := callback sys (itr + Datatypes.S k) d normdx theta in
              if Rltb theta_max theta || negb ok then Some (x1, false, Datatypes.S k, sqrt sg)
              else qn_loop f qmiter itr sys x1 false (Datatypes.S k) (dxs ++ [d]) (sigs ++ [sg]) (sqrt sg) d0
          end
      else Some (x, false, k, normdx)
  end.
(** qnerr.py 81-93 and 95-155, called from NLEQ-ERR (nleqcalled=True). *)
Definition qnerr_nleq (qmiter itr : nat) (sys : S) (x dx0 : X) : option (X * bool * nat * R) :=
  qn_loop (qmiter + 2) qmiter itr sys x true 0 [dx0] [ip dx0 dx0] (nrm dx0) dx0.
(** qnerr.py 54-80 and 95-155, called on its own: the two early returns give
    four values ([inl]), the end six. *)
Definition qnerr_alone (qmiter : nat) (x : X) : option ((X * bool * nat * R) + (X * bool * nat * R * nat * S)) :=
  let sys := mksys x in
  match solve sys (vneg (rhs sys x)) with
  | (dxk, false) => Some (inl (x, false, 0%nat, nrm dxk))
  | (dxk, true) =>
      if callback sys 0 dxk (nrm dxk) (/ 2 * theta_max) then
        option_map (fun r => inr (r, 1%nat, sys)) (qn_loop (qmiter + 2) qmiter 0 sys x false 0 [dxk] [nrm dxk] (nrm dxk) dxk)
      else Some (inl (x, false, 0%nat, nrm dxk))
  end.

(** ** nleq_err.py *)
(** min(a, mue) for mue possibly infinite. *)
Definition minf (a : R) (m : option R) : R := match m with Some b => Rmin a b | None => a end.
Definition is_one (r : R) : bool := Rleb r 1 && Rleb 1 r.

(** nleq_err.py 125-187, the damping loop.  [d_trials] lists the damping
    factors of the trial iterates (newest first). *)
Record dres := mkD { d_lam : R; d_linok : bool; d_succ : bool; d_limit : bool; d_xkp1 : X; d_dxbar : X;
                     d_theta : R; d_qn : bool; d_f : V; d_trials : list R }.
Fixpoint damp (fuel : nat) (sys : S) (x dx : X) (normdx lam : R) (reducted : bool)
    (xkp1 dxbar : X) (theta : R) (qn : bool) (f : V) (tr : list R) : option dres :=
  match fuel with
  | O => None
  | Datatypes.S n =>
      if Rleb lam lambda_min then Some (mkD lam true false true xkp1 dxbar theta qn f tr)
      else
        let xk := xadd x (xscal lam dx) in
        let f' := rhs sys xk in
        match solve sys (vneg f') with
        | (db, false) => Some (mkD lam false false false xk db theta qn f' (lam :: tr))
        | (db, true) =>
            let normdxbar := nrm db in
            let th := normdxbar / normdx in
            let w := nrm (xsub db (xscal (1 - lam) dx)) in
            let mue := if Rltb 0 w then Some (/ 2 * normdx * lam * lam / w) else None in
            if (negb restricted && Rleb 1 th) || (restricted && Rltb (1 - lam / 4) th) then
              let lnew := minf (/ 2 * lam) mue in
              damp n sys x dx normdx (if Rleb lam lambda_min then lnew else Rmax lnew lambda_min) true xk db th qn f' (lam :: tr)
            else
              let lnew := minf 1 mue in
              if is_one lam && is_one lnew then
                if Rleb normdxbar tol then Some (mkD lam true true false xk db th qn f' (lam :: tr))
                else Some (mkD lam true false false xk db th (Rltb th theta_max) f' (lam :: tr))
              else if Rleb (4 * lam) lnew && negb reducted then
                damp n sys x dx normdx lnew false xk db th qn f' (lam :: tr)
              else Some (mkD lam true false false xk db th qn f' (lam :: tr))
        end
  end.

(** Why the iteration ended. *)
Inductive reason := MaxIter | LinFail | Converged | ConvergedBar | LambdaMin | CallbackStop.
(** nleq_err.py 246, the returned values x, newton_success, k, normdx, neval
    (nsystem left out), and for the properties: the reason, all trial damping
    factors, the accepted steps (newest first: damping factor, norm of the
    Newton correction, norm of the simplified correction, and whether QNERR was
    run after it) and the final content of the object passed as x. *)
Record nres := mkN { r_x : X; r_succ : bool; r_k : nat; r_normdx : R; r_neval : nat;
                     r_why : reason; r_trials : list R; r_acc : list (R * R * R * bool); r_arg : X }.

(** nleq_err.py 66-246, the main loop.  [own]: x is still the object of the
    caller (until x = xkp1), so that x += dx changes it; [arg] is its content. *)
Fixpoint nleq_loop (fuel dfuel : nat) (x : X) (own : bool) (arg : X) (k : nat) (lam : R) (dx dxbar : X) (f : V)
    (normdx : R) (qn : bool) (neval : nat) (tr : list R) (acc : list (R * R * R * bool)) : option nres :=
  match fuel with
  | O => None
  | Datatypes.S n =>
      if Nat.leb miter k then Some (mkN x false k normdx neval MaxIter tr acc arg)
      else
        let sys := mksys x in
        let fk := if Nat.eqb k 0 then rhs sys x else f in
        match solve sys (vneg fk) with
        | (_, false) => Some (mkN x false k normdx (neval + 1) LinFail tr acc arg)
        | (dx', true) =>
            let nd := nrm dx' in
            if Rleb nd tol then
              Some (mkN (xadd x dx') true (k + 1) nd (neval + 1) Converged tr acc (if own then xadd x dx' else arg))
            else
              let lam' := if Nat.eqb k 0 then lam else
                let s := nrm (xsub dxbar dx') in
                minf 1 (if Rltb 0 s then Some (nrm dx * nrm dxbar / (s * nd) * lam) else None) in
              match damp dfuel sys x dx' nd lam' false x dxbar 0 qn fk tr with
              | None => None
              | Some d =>
                  let x1 := if d_succ d then xadd (d_xkp1 d) (d_dxbar d) else x in
                  let step (q : bool) := (d_lam d, nd, nrm (d_dxbar d), q) in
                  if negb (d_linok d) then Some (mkN x1 false k nd (neval + 1) LinFail (d_trials d) acc arg)
                  else if d_limit d then Some (mkN x1 false k nd (neval + 1) LambdaMin (d_trials d) acc arg)
                  else if negb (callback sys (k + 1) dx' (d_lam d * nd) (d_theta d)) then
                    Some (mkN x1 false (k + 1) nd (neval + 1) CallbackStop (d_trials d) acc arg)
                  else if d_succ d then Some (mkN x1 true (k + 1) nd (neval + 1) ConvergedBar (d_trials d) (step false :: acc) arg)
                  else if d_qn d && use_qnerr then
                    match qnerr_nleq (miter - (k + 1) + 1) (k + 1) sys (d_xkp1 d) dx' with
                    | None => None
                    | Some (x2, ok, kp, nq) =>
                        nleq_loop n dfuel x2 false arg (k + 1 + kp) (d_lam d) dx' (d_dxbar d) (rhs sys x2) nq
                          (d_qn d && ok) (neval + 1) (d_trials d) (step true :: acc)
                    end
                  else nleq_loop n dfuel (d_xkp1 d) false arg (k + 1) (d_lam d) dx' (d_dxbar d) (d_f d) nd
                         (d_qn d) (neval + 1) (d_trials d) (step false :: acc)
              end
        end
  end.
(** nleq_err.py 13-64: the start; [lam0] is the initial damping factor (1,
    1e-2 or 1e-4).  dx, dxbar and f are not read before they are set. *)
Definition nleq_err (dfuel : nat) (lam0 : R) (x : X) : option nres :=
  nleq_loop (miter + 1) dfuel x true x 0 lam0 x x (rhs (mksys x) x) 0 false 0 [] [].

(** ** newton_standard.py 40-90.  The linear failure raises NameError
    ([None]: the module does not import warnings). *)
Inductive outcome := Raises | Returns (x : X) (succ : bool) (k : nat) (normdx : R) (arg : X).
Fixpoint std_loop (fuel : nat) (x : X) (k : nat) (normdx : R) : outcome :=
  match fuel with
  | O => Returns x false k normdx x       (* k >= miter *)
  | Datatypes.S n =>
      let sys := mksys x in
      match solve sys (vneg (rhs sys x)) with
      | (_, false) => Raises
      | (dx, true) =>
          let nd := nrm dx in
          let x1 := xadd x dx in          (* x += dx, the object of the caller *)
          if Rleb nd tol then Returns x1 true (k + 1) nd x1
          else if callback sys (k + 1) dx nd 0 then std_loop n x1 (k + 1) nd
          else Returns x1 false (k + 1) nd x1
      end
  end.
Definition newton_standard (x : X) : outcome := std_loop miter x 0 0.
End Newton.

Arguments mkN {X}. Arguments r_x {X}. Arguments r_succ {X}. Arguments r_k {X}. Arguments r_normdx {X}.
Arguments r_neval {X}. Arguments r_why {X}. Arguments r_trials {X}. Arguments r_acc {X}. Arguments r_arg {X}.
Arguments Raises {X}. Arguments Returns {X}.

(** ** newton.py 27-72 and newton_seeker.py 35-72: the dispatch. *)
(** The values in the tuples the solvers return. *)
Inductive pyval (X S : Type) := PX (x : X) | PB (b : bool) | PN (n : nat) | PR (r : R) | PS (s : option S).
Arguments PX {X S}. Arguments PB {X S}. Arguments PN {X S}. Arguments PR {X S}. Arguments PS {X S}.
(** a, b, ... = tup: ValueError ([None]) unless the lengths agree. *)
Definition unpack {A} (n : nat) (tup : list A) : option (list A) := if Nat.eqb (length tup) n then Some tup else None.

(** qnerr.py 72, 85, 155; nleq_err.py 246; the tuples. *)
Definition qnerr_tuple {X S} (r : (X * bool * nat * R) + (X * bool * nat * R * nat * S)) : list (pyval X S) :=
  match r with
  | inl (x, ok, k, nd) => [PX x; PB ok; PN k; PR nd]
  | inr (x, ok, k, nd, ne, s) => [PX x; PB ok; PN k; PR nd; PN ne; PS (Some s)]
  end.
Definition nleq_tuple {X S} (s : option S) (r : nres X) : list (pyval X S) :=
  [PX (r_x r); PB (r_succ r); PN (r_k r); PR (r_normdx r); PN (r_neval r); PS s].
(** newton.py 43-74 (methods qnerr and nleq) and newton_seeker.py 55-72 (nleq):
    the caller unpacks and returns x, success, k.  Other methods: not here. *)
Definition ret3 {X S} (t : list (pyval X S)) : option (X * bool * nat) :=
  match t with PX x :: PB b :: PN k :: _ => Some (x, b, k) | _ => None end.
Definition newton_solve_tuple {X S} (t : list (pyval X S)) : option (X * bool * nat) :=
  match unpack 6 t with Some l => ret3 l | None => None end.
Definition seeker_solve_tuple {X S} (t : list (pyval X S)) : option (X * bool * nat) :=
  match unpack 5 t with Some l => ret3 l | None => None end.
