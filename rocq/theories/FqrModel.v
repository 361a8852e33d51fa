(** Model of the QR factorisation of functions: funpy/qr.py, funpy/cheb/qr.py,
    chebtech.qr (cheb/chebtech.py 417-421) and fun.qr (fun.py 354-360).
    Real functions; exact arithmetic.  None stands for an exception or for NaN
    entries. *)
From Coq Require Import Reals ZArith List Arith Bool.
From Coquelicot Require Import Coquelicot.
From Verif Require Import Base Vecs ChebModel ChebModel2 FunModel.
Import ListNotations.
Open Scope R_scope.

Section abstractQR.
  (** The columns of A and E are vectors of X; inner_product and norm are
      parameters of abstractQR. *)
  Context {X : ModuleSpace R_Ring} (ip : X -> X -> R) (nrm : X -> R) (tol : R) (m : nat).
  (** Assignment to column k of an array. *)
  Definition setc {A : Type} (F : nat -> A) (k : nat) (v : A) : nat -> A := fun j => if Nat.eqb j k then v else F j.
  (** The arrays A, E, V, R. *)
  Record qst := mkQ { qA : nat -> X; qE : nat -> X; qV : nat -> X; qR : nat -> nat -> R }.

  (** qr.py 21-25: s = 1 if aex < tol*scl else -sign(ex/aex); 0/0 gives NaN. *)
  Definition qr_sign (ex scl : R) : option R :=
    let aex := Rabs ex in
    if Rltb aex (tol * scl) then Some 1
    else if Reqb aex 0 then None
    else Some (- sign (ex / aex)).
  (** qr.py 37-39: for i in I, I = arange(0, k-1). *)
  Definition qr_orth (E : nat -> X) (k : nat) (v : X) : X :=
    fold_left (fun v i => minus v (scal (ip (E i) v) (E i))) (seq 0 (k - 1)) v.
  (** qr.py 42-46 *)
  Definition qr_unit (Ek v : X) (scl : R) : option X :=
    let nv := sqrt (ip v v) in
    if Rltb nv (tol * scl) then Some Ek
    else if Reqb nv 0 then None
    else Some (scal (/ nv) v).
  (** qr.py 52-62: the loop over j > k, one column. *)
  Definition qr_refl (v a : X) : X := minus a (scal (2 * ip v a) v).
  Definition qr_row (Ek v a : X) : R := ip Ek (qr_refl v a).
  Definition qr_col (Ek v a : X) : X := minus (qr_refl v a) (scal (qr_row Ek v a) Ek).
  (** qr.py 11-62: one pass of the loop over k. *)
  Definition qr_step (s : qst) (k : nat) : option qst :=
    let scl := Rmax (nrm (qE s k)) (nrm (qA s k)) in
    match qr_sign (ip (qE s k) (qA s k)) scl with
    | None => None
    | Some sg =>
      let Ek := scal sg (qE s k) in
      let E := setc (qE s) k Ek in
      let r := sqrt (ip (qA s k) (qA s k)) in
      match qr_unit Ek (qr_orth E k (minus (scal r Ek) (qA s k))) scl with
      | None => None
      | Some v =>
        Some (mkQ (fun j => if Nat.ltb k j && Nat.ltb j m then qr_col Ek v (qA s j) else qA s j)
                  E
                  (setc (qV s) k v)
                  (fun i j => if Nat.eqb i k then
                                (if Nat.eqb j k then r else if Nat.ltb k j && Nat.ltb j m then qr_row Ek v (qA s j) else qR s i j)
                              else qR s i j))
      end
    end.
  Fixpoint qr_loop (s : qst) (ks : list nat) : option qst :=
    match ks with
    | [] => Some s
    | k :: ks => match qr_step s k with None => None | Some s' => qr_loop s' ks end
    end.
  (** qr.py 65-70: for k = m-1 .. 0, for j >= k: Q_j -= 2 V_k <V_k, Q_j>. *)
  Definition qr_back (V Q : nat -> X) : nat -> X :=
    fold_left (fun Q k => fun j => if Nat.leb k j && Nat.ltb j m then qr_refl (V k) (Q j) else Q j) (rev (seq 0 m)) Q.
  (** qr.py 6-72 *)
  Definition abstractQR (A E : nat -> X) : option ((nat -> X) * (nat -> nat -> R)) :=
    match qr_loop (mkQ A E A (fun _ _ => 0)) (seq 0 m) with
    | None => None
    | Some s => Some (qr_back (qV s) (qE s), qR s)
    end.
End abstractQR.

(** Below, X = vecs: entry i of a column of an array. *)
(** np.dot(np.conj(f) * w, g) over N entries (cheb/qr.py 51). *)
Definition wdot (N : nat) (w : list R) (f g : vecs) : R := rsum N (fun i => (f : vec) i * nth i w 0 * (g : vec) i).
(** LA.norm(f, ord=np.inf) (cheb/qr.py 52) *)
Definition vinf (N : nat) (f : vecs) : R := fold_right (fun i b => Rmax (Rabs ((f : vec) i)) b) 0 (seq 0 N).
(** Columns k, k+1 of the Legendre-Vandermonde matrix before scaling
    (cheb/qr.py 40-43: E[:,k-1] = ((2k-3) x E[:,k-2] - (k-2) E[:,k-3])/(k-1), k = 3..m). *)
Fixpoint leg_cols (x : nat -> R) (k : nat) : (nat -> R) * (nat -> R) :=
  match k with
  | O => (fun _ => 1, x)
  | S k1 => let '(a, b) := leg_cols x k1 in
            let kk := INR (k1 + 3) in
            (b, fun i => ((2 * kk - 3) * x i * b i - (kk - 2) * a i) / (kk - 1))
  end.
(** cheb/qr.py 38-47, with the scaling by sqrt((2k-1)/2), k = 1..m. *)
Definition leg_E (x : nat -> R) : nat -> vecs :=
  fun j i => fst (leg_cols x j) i * sqrt ((2 * INR (S j) - 1) / 2).

(** np.max(f.vscale) *)
Definition max_vscale (A : arr) : R := fold_right Rmax 0 (map vscale_col A).
(** cheb/qr.py 13-58.  Returns the coefficients of Q (with the flag whether the
    array is Fortran contiguous, as the routines of detail.pyx demand), R, and f
    after f.prolong(newN).  m = 0 returns (f, None), which chebtech.qr cannot
    use; m = 1 calls f.innerproduct, which does not exist. *)
Definition cheb_qr_cols (eps0 : R) (f : chebtech) : option (arr * bool * list (list R) * arr) :=
  let m := length (coeffs f) in let n := nrows (coeffs f) in
  if Nat.leb m 1 then None else
  let tol := eps0 * max_vscale (coeffs f) in
  let newN := (2 * Nat.max n m)%nat in
  let fc := prolong (coeffs f) (Z.of_nat newN) in
  let A := polyval fc in
  match quadwts newN with
  | None => None
  | Some w =>
    match abstractQR (X := vecs) (wdot newN w) (vinf newN) tol m (fun j i => nth i (nth j A []) 0) (leg_E (fun i => nth i (chebpts_type2_compute newN) 0)) with
    | None => None
    | Some (Q, Rm) =>
      let c := polyfit (mk m (fun j => mk newN (fun i => (Q j : vec) i))) in
      let rows := (newN / 2 + 1)%nat in
      Some (map (firstn rows) c, Nat.eqb rows newN, mk m (fun i => mk m (fun j => Rm i j)), fc)
    end
  end.
(** The constructor chebtech(coeffs=c, simplify=False, ishappy=h) on an array that
    need not be Fortran contiguous: if h is false it calls happiness_check, whose
    argument is declared double[::1, :] (chebtech.py 60-62, detail.pyx 178). *)
Definition init_strided (c : arr) (fcontig : bool) (e h : R) (ml : Z) (happy : bool) : option chebtech :=
  if happy || fcontig then cheb_init c e h ml happy false else None.
(** chebtech.qr 417-421: (Q, contiguity of Q, R, f afterwards). *)
Definition cheb_qr (eps0 : R) (f : chebtech) : option (chebtech * bool * list (list R) * chebtech) :=
  match cheb_qr_cols eps0 f with
  | None => None
  | Some (c, fc, Rm, fp) =>
    match init_strided c fc (eps f) (hscale f) (maxLength f) (ishappy f) with
    | None => None
    | Some Q => Some (Q, fc, Rm, mkCheb fp (eps f) (hscale f) (maxLength f) (ishappy f))
    end
  end.
(** fun.qr (fun.py 354-360): Q /= rescaleFactor (in place, no constructor call),
    R *= rescaleFactor. *)
Definition fun_qr (eps0 : R) (F : Fun) : option (Fun * bool * list (list R) * Fun) :=
  match cheb_qr eps0 (onefun F) with
  | None => None
  | Some (Q, fc, Rm, fp) =>
    let s := sqrt (/ 2 * (dom1 F - dom0 F)) in
    Some (mkFun (mkCheb (map (map (fun x => x / s)) (coeffs Q)) (eps Q) (hscale Q) (maxLength Q) (ishappy Q)) (dom0 F) (dom1 F),
          fc, map (map (fun x => x * s)) Rm, mkFun fp (dom0 F) (dom1 F))
  end.
(** simplify_coeffs and prolong (detail.pyx 115, 149) are declared for
    double[::1, :] arrays: np.diff, Q.simplify(), Q.prolong(n) and f.qr() itself
    raise on other arrays. *)
Definition strided_diff (F : Fun) (fcontig : bool) (n : nat) : option Fun := if fcontig then fun_diff F n else None.
