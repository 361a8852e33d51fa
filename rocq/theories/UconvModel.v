(** Model of the conversions between ultraspherical bases.
    - ultra.py 9-40     jac2jac, jacobiIntegerConversion
    - ultra.py 43-82    Up-, Down-, Right-, LeftJacobiConversion
    - ultra.py 85-107   scl, ultra2ultra
    - fun.py 236-242    Fun.from_ultra
    - colloc/ultraS/ultraS.py 295-297 toFunctionOut
    Arrays are lists of columns; every step of the code acts on the columns separately. *)
From Coq Require Import Reals ZArith List Arith Bool.
From Verif Require Import Base ChebModel ChebModel2 FunModel.
Import ListNotations.
Open Scope R_scope.

(** ultra.py 47-48: the two diagonals *)
Definition up_d1 (a b : R) (i : nat) : R :=
  match i with
  | O => 1
  | S O => (a + b + 2) / (a + b + 3)
  | S (S k) => (a + b + 3 + INR k) / (a + b + 5 + 2 * INR k)
  end.
Definition up_d2 (a b : R) (i : nat) : R := (a + 1 + INR i) / (a + b + 3 + 2 * INR i).
(** ultra.py 43-52: (alpha, beta) -> (alpha, beta+1) *)
Definition up_jacobi (v : list R) (a b : R) : list R :=
  mk (length v) (fun i => up_d1 a b i * nth i v 0 + if Nat.ltb i (length v - 1) then up_d2 a b i * nth (S i) v 0 else 0).

(** ultra.py 59: 1, (a+1)/(a+b+2), then the cumulative products *)
Fixpoint down_top (a b : R) (i : nat) : R :=
  match i with
  | O => 1
  | S O => (a + 1) / (a + b + 2)
  | S (S k as i') => down_top a b i' * ((a + 2 + INR k) / (a + b + 3 + INR k))
  end.
(** ultra.py 60: signs; a single row broadcasts the sign of row 0 over both entries *)
Definition down_sign (n i : nat) : R := if Nat.eqb n 1 then 1 else (-1) ^ i.
(** ultra.py 63 *)
Definition down_ratio (a b : R) (n i : nat) : R :=
  match i with
  | O => 1
  | S O => - (a + b + 3) / (a + 1)
  | S (S k) => (a + b + 5 + 2 * INR k) / (a + b + 3 + INR k) * (1 / (down_sign n i * down_top a b i))
  end.
(** ultra.py 55-64: (alpha, beta+1) -> (alpha, beta).  For one row topRow and ratios have two entries
    and the row is broadcast: the result has two rows. *)
Definition down_jacobi (v : list R) (a b : R) : list R :=
  let n := length v in
  let L := Nat.max n 2 in
  let x i := if Nat.eqb n 1 then nth 0 v 0 else nth i v 0 in
  mk L (fun i => down_ratio a b n i * rsum (L - i) (fun k => down_sign n (i + k) * down_top a b (i + k) * x (i + k)%nat)).

(** v[1::2] = -v[1::2] *)
Definition flip_odd (v : list R) : list R := mk (length v) (fun i => if Nat.even i then nth i v 0 else - nth i v 0).
(** ultra.py 67-72, 75-80 *)
Definition right_jacobi (v : list R) (a b : R) : list R := flip_odd (up_jacobi (flip_odd v) b a).
Definition left_jacobi (v : list R) (a b : R) : list R := flip_odd (down_jacobi (flip_odd v) b a).

(** ultra.py 22-40: the four loops; the fuel bounds the number of iterations *)
Fixpoint right_loop (fuel : nat) (v : list R) (alpha beta gam : R) : option (list R * R) :=
  match fuel with
  | O => None
  | S k => if Rleb alpha (gam - 1) then right_loop k (right_jacobi v alpha beta) (alpha + 1) beta gam else Some (v, alpha)
  end.
Fixpoint left_loop (fuel : nat) (v : list R) (alpha beta gam : R) : option (list R * R) :=
  match fuel with
  | O => None
  | S k => if Rleb (gam + 1) alpha then left_loop k (left_jacobi v (alpha - 1) beta) (alpha - 1) beta gam else Some (v, alpha)
  end.
Fixpoint up_loop (fuel : nat) (v : list R) (alpha beta delta : R) : option (list R * R) :=
  match fuel with
  | O => None
  | S k => if Rleb beta (delta - 1) then up_loop k (up_jacobi v alpha beta) alpha (beta + 1) delta else Some (v, beta)
  end.
Fixpoint down_loop (fuel : nat) (v : list R) (alpha beta delta : R) : option (list R * R) :=
  match fuel with
  | O => None
  | S k => if Rleb (delta + 1) beta then down_loop k (down_jacobi v alpha (beta - 1)) alpha (beta - 1) delta else Some (v, beta)
  end.
Definition jacobi_conversion (fuel : nat) (v : list R) (alpha beta gam delta : R) : option (list R * R * R) :=
  match right_loop fuel v alpha beta gam with
  | None => None
  | Some (v, alpha) =>
    match left_loop fuel v alpha beta gam with
    | None => None
    | Some (v, alpha) =>
      match up_loop fuel v alpha beta delta with
      | None => None
      | Some (v, beta) => match down_loop fuel v alpha beta delta with None => None | Some (v, beta) => Some (v, alpha, beta) end
      end
    end
  end.
(** ultra.py 9-18: raises unless the target is reached *)
Definition jac2jac (fuel : nat) (v : list R) (alpha beta gam delta : R) : option (list R) :=
  match jacobi_conversion fuel v alpha beta gam delta with
  | None => None
  | Some (v, A, B) => if Rltb (/ 10 ^ 15) (Rabs (A - gam)) then None else if Rltb (/ 10 ^ 15) (Rabs (B - delta)) then None else Some v
  end.

(** ultra.py 83-91.  Simplification: Gamma(2 lam)/Gamma(lam+1/2) Gamma(lam+1/2+i)/Gamma(2 lam+i) is
    written as the product of (lam+1/2+k)/(2 lam+k), k < i. *)
Fixpoint scl (lam : nat) (i : nat) : R :=
  match i with
  | O => 1
  | S k => scl lam k * (match lam with O => (INR k + / 2) / (INR k + 1) | S _ => (INR lam + / 2 + INR k) / (2 * INR lam + INR k) end)
  end.
(** ultra.py 94-104, one column *)
Definition ultra2ultra_col (c : list R) (lam_in lam_out : nat) : option (list R) :=
  let n := length c in
  let c1 := mk n (fun i => nth i c 0 / scl lam_in i) in
  match jac2jac (lam_in + lam_out + 1) c1 (INR lam_in - / 2) (INR lam_in - / 2) (INR lam_out - / 2) (INR lam_out - / 2) with
  | None => None
  | Some r =>
    let r := mk (length r) (fun i => nth i r 0 * scl lam_out (if Nat.eqb n 1 then 0 else i)) in
    Some (if Nat.eqb (length r) n then r else firstn 1 r)
  end.
Fixpoint map_option {A B} (f : A -> option B) (l : list A) : option (list B) :=
  match l with
  | [] => Some []
  | x :: t => match f x, map_option f t with Some y, Some r => Some (y :: r) | _, _ => None end
  end.
Definition ultra2ultra (A : arr) (lam_in lam_out : nat) : option arr := map_option (fun c => ultra2ultra_col c lam_in lam_out) A.
(** what the argument of ultra2ultra holds afterwards: it is divided by scl in place; the first
    conversion then negates its odd rows in place and continues with a new array; without a conversion
    the same array is multiplied by scl again *)
Definition ultra2ultra_arg (A : arr) (lam_in lam_out : nat) : arr :=
  map (fun c => let c1 := mk (length c) (fun i => nth i c 0 / scl lam_in i) in
                if Nat.eqb lam_in lam_out then mk (length c) (fun i => nth i c1 0 * scl lam_out i) else flip_odd c1) A.

(** fun.py 236-242: Fun.from_ultra(v, k, lam, domain=[a,b]); the reshaped array is a view of v *)
Definition fun_from_ultra (v : list R) (k lam : nat) (a b : R) : option Fun :=
  if Nat.eqb k 0 then None
  else if Nat.eqb (length v mod k) 0 then
    match ultra2ultra (reshapeF (length v / k) k v) lam 0 with
    | None => None
    | Some A => option_map (fun f => mkFun f a b) (cheb_init A eps_default (fun_hscale a b) maxLength_default false false)
    end
  else None.
Definition fun_from_ultra_arg (v : list R) (k lam : nat) : list R := concat (ultra2ultra_arg (reshapeF (length v / k) k v) lam 0).
