(** Properties of Fun (functions on an interval [a,b]).  Vocabulary:
    [fev F j x] = the Chebyshev series of column j at (2x-a-b)/(b-a), where
    a = dom0 F, b = dom1 F; [fwf F] = well-formed array and a < b; [flen],
    [fcols] the shape; [fevK F j K] the series cut after K terms. *)
From Coq Require Import Reals ZArith List Arith Lia Lra Bool.
From Coquelicot Require Import Coquelicot.
From Verif Require Import Base ChebSpec ChebModel ChebEval ChebCalc ChebObj ChebOps ChebOps2 ChebArith ChebMulObj ChebModel2 ChebConstr ChebRefute FunModel FunProofs FunExact PropCheb.
Import ListNotations.
Open Scope R_scope.

(** C18: the linear map of an interval and its stored inverse and derivative. *)
Theorem C18_map_bijection : forall a b,
  a < b ->
  map_fwd a b (-1) = a /\ map_fwd a b 1 = b /\
  (forall y, -1 <= y <= 1 -> a <= map_fwd a b y <= b) /\
  (forall x, a <= x <= b -> -1 <= map_bwd a b x <= 1) /\
  (forall y, map_bwd a b (map_fwd a b y) = y) /\ (forall x, map_fwd a b (map_bwd a b x) = x) /\
  (forall y, is_derive (map_fwd a b) y (map_der a b y)).
Proof. exact map_bijection. Qed.
Print Assumptions C18_map_bijection.

(** C18: evaluation on [a,b] is evaluation of the wrapped function at the mapped point (never rejected). *)
Theorem C18_call : forall F xs,
  fwf F -> xs <> [] -> (forall x, In x xs -> dom0 F <= x <= dom1 F) ->
  exists V, fun_call F xs = Some V /\ length V = fcols F /\
    forall i j, (j < fcols F)%nat -> (i < length xs)%nat -> nth i (nth j V []) 0 = fev F j (nth i xs 0).
Proof. exact call_correct. Qed.
Print Assumptions C18_call.

(** C18: a point outside the domain is rejected. *)
Theorem C18_call_outside : forall F xs x,
  dom0 F < dom1 F -> In x xs -> x < dom0 F \/ dom1 F < x -> fun_call F xs = None.
Proof. exact call_outside. Qed.
Print Assumptions C18_call_outside.

(** C19: derivative on [a,b].  K is where the input was cut (documented simplification), K2 where the scaled result was. *)
Theorem C19_diff : forall F n,
  fwf F -> (1 <= n)%nat ->
  exists G K K2 (D : nat -> R -> R), fun_diff F n = Some G /\ fwf G /\ same_dom F G /\ fcols G = fcols F /\
    trunc_ok (onefun F) (eps (onefun F)) K /\
    (forall j x, (j < fcols F)%nat -> is_derive_n (fevK F j K) n x (D j x)) /\
    ((flen F <= K2)%nat -> forall j x, (j < fcols F)%nat -> fev G j x = D j x) /\
    (0 < eps (onefun F) < 1 -> forall j x, (j < fcols F)%nat -> dom0 F <= x <= dom1 F ->
       Rabs (D j x - fev G j x) <= INR (flen F - K2) * Rpower (eps (onefun F)) (2 / 5)).
Proof. exact fun_diff_correct. Qed.
Print Assumptions C19_diff.

(** C19: the derivative on [a,b] is exact when the last coefficient survives both simplifications. *)
Theorem C19_diff_exact : forall F n j0,
  fwf F -> (1 <= n)%nat -> 0 < eps (onefun F) < 1 -> (j0 < fcols F)%nat ->
  Rpower (eps (onefun F)) (2 / 5) < Rabs (coef (onefun F) j0 (flen F - 1)) ->
  Rpower (eps (onefun F)) (2 / 5) * ((dom1 F - dom0 F) / 2) ^ n < Rabs (coef (onefun F) j0 (flen F - 1)) ->
  exists G, fun_diff F n = Some G /\ same_dom F G /\ fcols G = fcols F /\ forall j x, (j < fcols F)%nat -> is_derive_n (fev F j) n x (fev G j x).
Proof. exact fun_diff_exact. Qed.
Print Assumptions C19_diff_exact.

(** C19: integral over [a,b]. *)
Theorem C19_sum : forall F j,
  fwf F -> (j < fcols F)%nat ->
  is_RInt (fev F j) (dom0 F) (dom1 F) (nth j (fun_sum F) 0).
Proof. exact fun_sum_correct. Qed.
Print Assumptions C19_sum.

(** C19: antiderivative vanishing at a. *)
Theorem C19_cumsum : forall F,
  fwf F ->
  exists G, fun_cumsum F = Some G /\ fwf G /\ same_dom F G /\ fcols G = fcols F /\
   (1 <= flen G <= flen F + 2)%nat /\
   forall j, (j < fcols F)%nat ->
     fev G j (dom0 F) = 0 /\
     ((flen F < flen G)%nat -> forall x, is_RInt (fev F j) (dom0 F) x (fev G j x) /\ is_derive (fev G j) x (fev F j x)) /\
     (0 < eps (onefun F) < 1 -> forall x, dom0 F <= x <= dom1 F ->
        Rabs (RInt (fev F j) (dom0 F) x - fev G j x) <=
          (dom1 F - dom0 F) * (INR (flen F + 1 - flen G) * Rpower (eps (onefun F)) (2 / 5))) /\
     (0 < eps (onefun F) < 1 ->
      Rpower (eps (onefun F)) (2 / 5) < Rabs (coef (onefun F) j (flen F - 1)) / (2 * INR (flen F)) -> (flen F < flen G)%nat).
Proof. exact fun_cumsum_correct_len. Qed.
Print Assumptions C19_cumsum.

(** C19: L2(a,b) inner products. *)
Theorem C19_inner : forall F G,
  fwf F -> fwf G -> dom0 F = dom0 G -> dom1 F = dom1 G ->
  exists M, fun_inner F G = Some M /\ length M = fcols F /\
    forall i j, (i < fcols F)%nat -> (j < fcols G)%nat ->
      length (nth i M []) = fcols G /\
      is_RInt (fun x => fev F i x * fev G j x) (dom0 F) (dom1 F) (nth j (nth i M []) 0).
Proof. exact fun_inner_correct. Qed.
Print Assumptions C19_inner.

(** C19: inner products over different intervals are rejected. *)
Theorem C19_inner_mismatch : forall F G,
  (dom0 F <> dom0 G \/ dom1 F <> dom1 G) -> fun_inner F G = None.
Proof. exact fun_inner_mismatch. Qed.
Print Assumptions C19_inner_mismatch.

(** C19: dot is the sum over the columns of the L2(a,b) products. *)
Theorem C19_dot : forall F G,
  fwf F -> fwf G -> dom0 F = dom0 G -> dom1 F = dom1 G -> fcols F = fcols G ->
  exists v, fun_dot F G = Some v /\
    is_RInt (fun x => rsum (fcols F) (fun i => fev F i x * fev G i x)) (dom0 F) (dom1 F) v.
Proof. exact fun_dot_correct. Qed.
Print Assumptions C19_dot.

(** C19: the h-norm is the L2(a,b) norm. *)
Theorem C19_norm : forall F,
  fwf F -> exists v, fun_normh F = Some v /\ 0 <= v /\
    is_RInt (fun x => rsum (fcols F) (fun i => fev F i x ^ 2)) (dom0 F) (dom1 F) (v ^ 2).
Proof. exact fun_normh_correct. Qed.
Print Assumptions C19_norm.

(** C19: the weighted product is the Chebyshev-weighted integral. *)
Theorem C19_innerw : forall F G j,
  fwf F -> fwf G -> dom0 F = dom0 G -> dom1 F = dom1 G ->
  (j < fcols F)%nat -> (j < fcols G)%nat ->
  exists V, fun_innerw F G = Some V /\
    is_RInt (fun t => fev F j (map_fwd (dom0 F) (dom1 F) (cos t)) * fev G j (map_fwd (dom0 F) (dom1 F) (cos t))
                      * ((dom1 F - dom0 F) / 2)) 0 PI (nth j V 0).
Proof. exact fun_innerw_correct. Qed.
Print Assumptions C19_innerw.

(** C11 on [a,b]. *)
Theorem C11_fun_add : forall F G,
  fwf F -> fwf G -> dom0 F = dom0 G -> dom1 F = dom1 G ->
  (fcols G = fcols F \/ fcols G = 1%nat) ->
  exists H, fun_add F G = Some H /\ fwf H /\ same_dom F H /\ fcols H = fcols F /\
   ((forall j x, (j < fcols F)%nat -> fev H j x = fev F j x + fev G (fbc G j) x)
    \/
    ((forall j k, (j < fcols F)%nat -> (k < Nat.max (flen F) (flen G))%nat ->
        Rabs (coef (onefun F) j k + coef (onefun G) (fbc G j) k)
          < 2/10 * (eps (onefun F) * Rmax (vscl (coeffs (onefun F))) (vscl (coeffs (onefun G))))) /\
     forall j x, (j < fcols F)%nat -> fev H j x = 0)).
Proof. exact fun_add_correct. Qed.
Print Assumptions C11_fun_add.

(** C11 on [a,b]. *)
Theorem C11_fun_subtract : forall F G,
  fwf F -> fwf G -> dom0 F = dom0 G -> dom1 F = dom1 G ->
  (fcols G = fcols F \/ fcols G = 1%nat) ->
  exists H, fun_subtract F G = Some H /\ fwf H /\ same_dom F H /\ fcols H = fcols F /\
   ((forall j x, (j < fcols F)%nat -> fev H j x = fev F j x - fev G (fbc G j) x)
    \/
    ((forall j k, (j < fcols F)%nat -> (k < Nat.max (flen F) (flen G))%nat ->
        Rabs (coef (onefun F) j k - coef (onefun G) (fbc G j) k)
          < 2/10 * (eps (onefun F) * Rmax (vscl (coeffs (onefun F))) (vscl (coeffs (onefun G))))) /\
     forall j x, (j < fcols F)%nat -> fev H j x = 0)).
Proof. exact fun_subtract_correct. Qed.
Print Assumptions C11_fun_subtract.

(** C11 on [a,b]. *)
Theorem C11_fun_negative : forall F,
  fwf F -> exists H, fun_negative F = Some H /\ fwf H /\ same_dom F H /\ fcols H = fcols F /\
   forall j x, (j < fcols F)%nat -> fev H j x = - fev F j x.
Proof. exact fun_negative_correct. Qed.
Print Assumptions C11_fun_negative.

(** C12 on [a,b]. *)
Theorem C12_fun_multiply : forall F G,
  fwf F -> fwf G -> dom0 F = dom0 G -> dom1 F = dom1 G ->
  (2 <= flen F)%nat -> (2 <= flen G)%nat ->
  (fcols F = fcols G \/ fcols F = 1%nat \/ fcols G = 1%nat) ->
  0 < eps (onefun F) < 1 -> 0 < eps (onefun G) < 1 ->
  exists H, fun_multiply F G = Some H /\ fcols H = Nat.max (fcols F) (fcols G) /\ same_dom F H /\
    forall j, (j < fcols H)%nat ->
      let P := fun x => fev F (fbc F j) x * fev G (fbc G j) x in
      let t := INR (flen F + flen G - 1 - flen H) * Rpower (Rmax (eps (onefun F)) (eps (onefun G))) (2 / 5) in
      ((flen F + flen G - 1 <= flen H)%nat -> forall x, fev H j x = P x) /\
      ((exists x, fev F (fbc F j) x <> fev G (fbc G j) x) -> forall x, dom0 F <= x <= dom1 F -> Rabs (P x - fev H j x) <= t).
Proof. exact fun_multiply_correct. Qed.
Print Assumptions C12_fun_multiply.

(** C20: functions on [0,1] and [-5,-3] are added without complaint. *)
Theorem C20_domain_check_refuted :
  exists F G H, fwf F /\ fwf G /\
  Rabs (dom0 F - dom0 G) > 1 /\ Rabs (dom1 F - dom1 G) > 1 /\ fun_add F G = Some H.
Proof. exact domain_check_refuted. Qed.
Print Assumptions C20_domain_check_refuted.

(** C20: hstack accepts different domains. *)
Theorem C20_hstack_refuted :
  exists F G H, fwf F /\ fwf G /\ dom0 F <> dom0 G /\ fun_hstack [F; G] = Some H.
Proof. exact hstack_domain_refuted. Qed.
Print Assumptions C20_hstack_refuted.

(** C20, the direction that holds: the second operand lies to the right. *)
Theorem C20_rejects_partial : forall op F G,
  (/ 10 ^ 8 <= dom0 G - dom0 F \/ / 10 ^ 8 <= dom1 G - dom1 F) -> fun_binary op F G = None.
Proof. exact fun_binary_rejects. Qed.
Print Assumptions C20_rejects_partial.

(** C20: if both orders of a binary operation are accepted the domains agree. *)
Theorem C20_both_orders_partial : forall op F G H1 H2,
  fun_binary op F G = Some H1 -> fun_binary op G F = Some H2 ->
  Rabs (dom0 F - dom0 G) < / 10 ^ 8 /\ Rabs (dom1 F - dom1 G) < / 10 ^ 8.
Proof. exact fun_binary_both. Qed.
Print Assumptions C20_both_orders_partial.

(** C21. *)
Theorem C21_flatten_from_coeffs : forall F,
  fwf F ->
  exists G, fun_from_coeffs (fun_flatten F) (fcols F) (dom0 F) (dom1 F) = Some G /\
    coeffs (onefun G) = coeffs (onefun F) /\ same_dom F G.
Proof. exact flatten_from_coeffs. Qed.
Print Assumptions C21_flatten_from_coeffs.

(** C21. *)
Theorem C21_from_coeffs_flatten : forall v k a b,
  (1 <= k)%nat -> (1 <= length v)%nat -> (length v mod k = 0)%nat ->
  exists G, fun_from_coeffs v k a b = Some G /\ fcols G = k /\ fun_flatten G = v /\ dom0 G = a /\ dom1 G = b.
Proof. exact from_coeffs_flatten. Qed.
Print Assumptions C21_from_coeffs_flatten.

(** C21: a vector that does not split into the columns is rejected. *)
Theorem C21_from_coeffs_misfit : forall v k a b,
  (k = 0 \/ length v mod k <> 0)%nat -> fun_from_coeffs v k a b = None.
Proof. exact from_coeffs_misfit. Qed.
Print Assumptions C21_from_coeffs_misfit.

(** C49 on [a,b]. *)
Theorem C49_fun_construct : forall ops e ml ms a b,
  a < b -> ops <> [] -> (initial_n ml ms <= ml)%Z -> 0 < e < 1 ->
  exists F N, fun_construct ops e ml ms a b = Some F /\ fwf F /\ dom0 F = a /\ dom1 F = b /\ fcols F = length ops /\
    (initial_n ml ms <= Z.of_nat N <= ml)%Z /\
    forall j, (j < length ops)%nat ->
      let op := nth j ops (fun _ => 0) in
      let tol := Rmax (Rmax (Rabs a) (Rabs b)) (vscale_col (interp (fun y => op (map_fwd a b y)) N)) * e in
      0 < tol < 1 ->
      let B := INR N * Rmax (Rpower tol (2 / 5)) (Rpower e (2 / 5)) in
      (forall i, (i < N)%nat -> let xi := map_fwd a b (nth i (chebpts_type2_compute N) 0) in Rabs (op xi - fev F j xi) <= B) /\
      (spanT N op -> forall x, a <= x <= b -> Rabs (op x - fev F j x) <= B).
Proof. exact fun_construct_error. Qed.
Print Assumptions C49_fun_construct.


(** ** The hypotheses are met by concrete, non-trivial objects *)
Definition ex_F : Fun := mkFun ex_f 0 3.
Definition ex_G : Fun := mkFun ex_g 0 3.
Example ex_F_wf : fwf ex_F /\ fwf ex_G /\ dom0 ex_F = dom0 ex_G /\ dom1 ex_F = dom1 ex_G /\ fcols ex_F = fcols ex_G.
Proof. split; [split; [exact ex_f_wf|cbn; lra]|]. split; [split; [exact ex_g_wf|cbn; lra]|]. repeat split. Qed.
Example ex_F_value : fev ex_F 0 3 = 6 /\ fev ex_F 0 0 = 2.
Proof.
  unfold fev, ev. cbn [onefun ex_F dom0 dom1 ex_f coeffs nth].
  split; [replace ((2 * 3 - 0 - 3) / (3 - 0)) with 1 by field|replace ((2 * 0 - 0 - 3) / (3 - 0)) with (-1) by field];
  unfold evalT; cbn; ring.
Qed.
Example ex_diff_exact : 0 < eps (onefun ex_F) < 1 /\ (0 < fcols ex_F)%nat /\
  Rpower (eps (onefun ex_F)) (2 / 5) < Rabs (coef (onefun ex_F) 0 (flen ex_F - 1)) /\
  Rpower (eps (onefun ex_F)) (2 / 5) * ((dom1 ex_F - dom0 ex_F) / 2) ^ 1 < Rabs (coef (onefun ex_F) 0 (flen ex_F - 1)).
Proof.
  destruct ex_eps as [H1 H2]. split; [exact H1|]. split; [cbn; lia|]. split; [exact H2|]. change (coef (onefun ex_F) 0 (flen ex_F - 1)) with 3. change (onefun ex_F) with ex_f.
  assert (B : Rpower (eps ex_f) (2 / 5) < 1). { rewrite <- (Rpower_O (eps ex_f)) by apply H1. unfold Rpower. apply exp_increasing. assert (ln (eps ex_f) < 0) by (rewrite <- ln_1; apply ln_increasing; lra). lra. }
  rewrite (Rabs_pos_eq 3) by lra. cbn [dom0 dom1 ex_F]. lra.
Qed.
Example ex_call : (forall x, In x [0; 1; 5/2] -> dom0 ex_F <= x <= dom1 ex_F) /\ [0; 1; 5/2] <> [].
Proof. split; [|discriminate]. intros x [<-|[<-|[<-|[]]]]; cbn; lra. Qed.
