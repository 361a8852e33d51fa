(** Model of funpy/linalg/gbit.py and funpy/newton/giant.py.

    X are the states, V the raw vectors.  Float arithmetic is real arithmetic.
    In gbit a division of numpy numbers by zero (NaN in the code) follows Coq's
    convention; in giant, where the numbers are Python floats (math.sqrt), it
    is an exception. *)
From Coq Require Import Reals List Arith Bool Lra Lia.
From Verif Require Import Base ChebModel NewtonModel.
Import ListNotations.
Open Scope R_scope.

Definition Reqb0 (r : R) : bool := Rleb r 0 && Rleb 0 r.

Section Gbit.
Variables X V : Type.
(** A y is A * np.asarray(y), P z is to_fun(P * z). *)
Variables (A : X -> V) (P : V -> X) (vsub : V -> V -> V).
Variables (xadd xsub : X -> X -> X) (xscal : R -> X -> X) (ip : X -> X -> R).
Variables (max_iter i_max : nat) (rho tol tau_min tau_max epsilon_limit : R) (giant_simple : bool).

Definition gnrm (x : X) : R := sqrt (ip x x).

(** gbit.py 83-86: for m in range(i): zeta += <delta_m, zeta>/sigma_m (delta_{m+1} - (1 - t_m) delta_m). *)
Fixpoint gz (z : X) (ds : list X) (ss ts : list R) : X :=
  match ds, ss, ts with
  | d0 :: ((d1 :: _) as dt), s0 :: st, t0 :: tr =>
      gz (xadd z (xscal (ip d0 z / s0) (xsub d1 (xscal (1 - t0) d0)))) dt st tr
  | _, _, _ => z
  end.
(** gbit.py 75-125, the inner loop.  Results: y, stop_iter, iter.  ds and ss
    hold the entries 0..i of delta and sigma, ts the entries 0..i-1 of t. *)
Fixpoint gb_inner (fuel : nat) (y0 y : X) (ds : list X) (ss ts : list R) (i iter : nat) (d0 : X) : option (X * bool * nat) :=
  match fuel with
  | O => None
  | Datatypes.S n =>
      if Nat.leb i i_max && Nat.leb iter max_iter then
        let di := nth i ds d0 in
        let si := nth i ss 0 in
        let zeta := gz (P (A di)) ds ss ts in
        let gamma := ip di zeta in
        let tau := if Reqb0 gamma then 2 * tau_max else si / gamma in
        if Rltb tau tau_min && Nat.ltb 0 i then Some (y, false, iter)
        else
          let t := if Rltb tau tau_min then 1 else if Rleb tau tau_max then tau else 1 in
          let y1 := xadd y (xscal t di) in
          let d1 := xsub (xscal (1 - t + tau) di) (xscal tau zeta) in
          let s1 := ip d1 d1 in
          let epsilon := match i with
                         | O => sqrt (Rabs s1)
                         | Datatypes.S j => / 2 * sqrt (Rabs (nth j ss 0 + 2 * si + s1))
                         end in
          let nd := gnrm (xsub y1 y0) in
          let stop := if giant_simple then (if Reqb0 nd then false else Rleb (epsilon / nd) (rho * tol))
                      else Rleb epsilon (rho * gnrm y1 * tol) in
          if stop then Some (y1, true, Datatypes.S iter)
          else if Rltb epsilon_limit epsilon then Some (y1, false, Datatypes.S iter)
          else gb_inner n y0 y1 (ds ++ [d1]) (ss ++ [s1]) (ts ++ [t]) (Datatypes.S i) (Datatypes.S iter) d0
      else Some (y, false, iter)
  end.
(** gbit.py 59-133, the restarts.  Results: y, success, iter. *)
Fixpoint gb_outer (fuel : nat) (b : V) (y0 y : X) (iter : nat) : option (X * bool * nat) :=
  match fuel with
  | O => None
  | Datatypes.S n =>
      let d := P (vsub b (A y)) in
      match gb_inner (i_max + 2) y0 y [d] [ip d d] [] 0 iter d with
      | None => None
      | Some (y1, stop, iter1) =>
          if stop || Nat.leb max_iter iter1 then Some (y1, stop && Nat.ltb iter1 max_iter, iter1)
          else gb_outer n b y0 y1 iter1
      end
  end.
Definition gbit (b : V) (y : X) : option (X * bool * nat) := gb_outer (max_iter + 1) b y y 0.
End Gbit.

(** ** giant.py *)
Section Giant.
Variables X V S : Type.
Variables (mksys : X -> S) (rhs : S -> X -> V) (vneg : V -> V).
(** gbit as called by giant: system, right hand side, initial guess, tolerance, giant_simple. *)
Variable lin : S -> V -> X -> R -> bool -> X * bool.
Variables (xadd xsub : X -> X -> X) (xscal : R -> X -> X) (ip : X -> X -> R) (x_zero : X).
Variables (xtol lambda_min rho precision delta_bar : R) (restricted quadratic : bool) (max_iter : nat).

Definition rhobar_max : R := (/ 2 * rho) / (1 + / 2 * rho).

(** giant.py 154-215, the adaptation loop; safetyfactor = rho (line 39). *)
Inductive ares := AFuel | ARaise | AFail (tr : list R) | ADone (succ : bool) (lam hk : R) (xkp1 dxbar : X) (f : V) (tr : list R).
Fixpoint adapt (fuel : nat) (sys : S) (x dx : X) (normdx lam : R) (reducted : bool) (tr : list R) : ares :=
  match fuel with
  | O => AFuel
  | Datatypes.S n =>
      if Rltb lam lambda_min then AFail tr
      else
        let xk := xadd x (xscal lam dx) in
        let f := rhs sys xk in
        let s := 1 - lam in
        match lin sys (vneg f) (xscal s dx) rhobar_max true with
        | (_, false) => AFail (lam :: tr)
        | (db, true) =>
            let nb := gnrm X ip db in
            let theta := nb / normdx in
            let nw := gnrm X ip (xsub db (xscal s dx)) in
            if Reqb0 nw then ARaise
            else
              let rhobar := precision * rho * nb / nw in
              let hk := 2 * (1 - rhobar) * nw / (lam * lam * normdx) in
              if Reqb0 (hk * (1 + rho)) then ARaise
              else if (negb restricted && Rleb 1 theta) || (restricted && Rltb (1 - / 4 * lam) theta) then
                let lnew := Rmin (1 / (hk * (1 + rho))) (/ 2 * lam) in
                adapt n sys x dx normdx (if Rleb lam lambda_min then lnew else Rmax lnew lambda_min) true (lam :: tr)
              else
                let lnew := Rmin 1 (1 / (hk * (1 + rho))) in
                if is_one lam && is_one lnew then ADone (Rleb nb xtol) lam hk xk db f (lam :: tr)
                else if Rleb (4 * lam) lnew && negb reducted then adapt n sys x dx normdx lnew false (lam :: tr)
                else ADone false lam hk xk db f (lam :: tr)
        end
  end.

(** giant.py 228 and the early returns: x, newton_success, k, njac; GRaise is
    ZeroDivisionError.  For the properties: which test fired, the damping
    factors tried, the final content of the object passed as x. *)
Inductive gres := GFuel | GRaise
  | GRet (x : X) (succ : bool) (k njac : nat) (by_dx : bool) (tr : list R) (arg : X).

(** giant.py 79-228, the main loop. *)
Fixpoint giant_loop (fuel dfuel : nat) (x : X) (own : bool) (arg : X) (k : nat) (lam hk : R) (dx dxbar : X) (f : V)
    (njac : nat) (tr : list R) : gres :=
  match fuel with
  | O => GFuel
  | Datatypes.S n =>
      if Nat.ltb max_iter k then GRet x false k njac false tr arg
      else
        let sys := mksys x in
        let fk := if Nat.eqb k 0 then rhs sys x else f in
        let nprev := gnrm X ip dx in
        let tol1 := if quadratic then / 4 else rho / (2 * (1 + rho)) in
        match lin sys (vneg fk) dxbar tol1 false with
        | (_, false) => GRet x false k (njac + 1) false tr arg
        | (dx1, true) =>
            let cont (dx2 : X) (lam2 hk2 : R) :=
              let nd := gnrm X ip dx2 in
              if Rleb nd xtol then
                GRet (xadd x dx2) true (k + 1) (njac + 1) true tr (if own then xadd x dx2 else arg)
              else
                match adapt dfuel sys x dx2 nd lam2 false tr with
                | AFuel => GFuel
                | ARaise => GRaise
                | AFail tr' => GRet x false k (njac + 1) false tr' arg
                | ADone true l h xk db f' tr' =>
                    GRet (xadd x db) true (k + 1) (njac + 1) false tr' (if own then xadd x db else arg)
                | ADone false l h xk db f' tr' =>
                    giant_loop n dfuel xk false arg (k + 1) l h dx2 db f' (njac + 1) tr'
                end in
            if Nat.eqb k 0 then cont dx1 lam 0
            else
              let hk1 := gnrm X ip dx1 / nprev * hk in
              if Reqb0 nprev || Reqb0 ((1 + rho) * hk1) then GRaise
              else
                let lam1 := Rmin 1 (1 / ((1 + rho) * hk1)) in
                if is_one lam1 then
                  let tol2 := if quadratic then rho / 2 * hk / (1 + hk) else delta_bar in
                  match lin sys (vneg fk) dx1 tol2 false with
                  | (_, false) => GRet x false k (njac + 1) false tr arg
                  | (dx2, true) =>
                      let hk2 := gnrm X ip dx2 / nprev * hk in
                      if Reqb0 ((1 + rho) * hk2) then GRaise
                      else cont dx2 (Rmin 1 (1 / ((1 + rho) * hk2))) hk2
                  end
                else cont dx1 lam1 hk1
        end
  end.
(** giant.py 17-78: the start. *)
Definition giant_gbit (dfuel : nat) (lam0 : R) (x : X) : gres :=
  giant_loop (max_iter + 2) dfuel x true x 0 lam0 0 x_zero x_zero (rhs (mksys x) x) 0 [].
End Giant.
Arguments GFuel {X}. Arguments GRaise {X}. Arguments GRet {X}.
