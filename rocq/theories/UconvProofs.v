(** The conversions keep the function. *)
From Coq Require Import Reals ZArith List Arith Bool Lra Lia.
From Coquelicot Require Import Coquelicot.
From Verif Require Import Base ChebSpec ChebMath ChebModel ChebChop UltraSpec UltraBasis UconvModel UconvJac.
Import ListNotations.
Open Scope R_scope.

Definition evalJ (a b : R) (v : list R) (x : R) : R := rsum (length v) (fun i => nth i v 0 * jac i a b x).
Lemma evalJ_mk a b n f x : evalJ a b (mk n f) x = rsum n (fun i => f i * jac i a b x).
Proof. unfold evalJ. rewrite mk_length. apply rsum_ext. intros i Hi. now rewrite nth_mk by exact Hi. Qed.
Lemma up_d1_S a b i : up_d1 a b (S i) = (INR (S i) + a + b + 1) / (2 * INR (S i) + a + b + 1).
Proof.
  destruct i as [|k]; cbn [up_d1]; [change (INR 1) with 1|rewrite !S_INR]; apply f_equal2; ring.
Qed.
Lemma jac_up_i a b i x : -1 < a -> -1 < b -> jac (S i) a b x = up_d1 a b (S i) * jac (S i) a (b + 1) x + up_d2 a b i * jac i a (b + 1) x.
Proof.
  intros Ha Hb. assert (E := jac_up (S i) a b x ltac:(lia)). replace (S i - 1)%nat with i in E by lia. rewrite up_d1_S. unfold up_d2. rewrite S_INR in *. assert (P := pos_INR i).
  apply Rmult_eq_reg_l with (2 * (INR i + 1) + a + b + 1); [|lra]. rewrite E. field. lra.
Qed.
Lemma jac_right_i a b i x : -1 < a -> -1 < b -> jac (S i) a b x = up_d1 b a (S i) * jac (S i) (a + 1) b x - up_d2 b a i * jac i (a + 1) b x.
Proof.
  intros Ha Hb. assert (E := jac_right (S i) a b x ltac:(lia)). replace (S i - 1)%nat with i in E by lia. rewrite up_d1_S. unfold up_d2. rewrite S_INR in *. assert (P := pos_INR i).
  apply Rmult_eq_reg_l with (2 * (INR i + 1) + a + b + 1); [|lra]. rewrite E. field. lra.
Qed.
Lemma up_length v a b : length (up_jacobi v a b) = length v. Proof. apply mk_length. Qed.
Lemma up_eval v a b x : -1 < a -> -1 < b -> evalJ a (b + 1) (up_jacobi v a b) x = evalJ a b v x.
Proof.
  intros Ha Hb. unfold up_jacobi. rewrite evalJ_mk. unfold evalJ. destruct (length v) as [|n] eqn:L; [reflexivity|].
  replace (S n - 1)%nat with n by lia.
  rewrite (rsum_ext (S n) _ (fun i => up_d1 a b i * nth i v 0 * jac i a (b + 1) x + (if Nat.ltb i n then up_d2 a b i * nth (S i) v 0 * jac i a (b + 1) x else 0))) by (intros i _; destruct (Nat.ltb i n); ring).
  rewrite rsum_plus. rewrite (rsum_extend n (S n) (fun i => if Nat.ltb i n then _ else 0)); [|lia|intros k Hk; destruct (Nat.ltb_spec k n); [lia|reflexivity]].
  rewrite (rsum_ext n (fun i => if Nat.ltb i n then _ else 0) (fun i => up_d2 a b i * nth (S i) v 0 * jac i a (b + 1) x)) by (intros i Hi; destruct (Nat.ltb_spec i n); [reflexivity|lia]).
  rewrite !rsum_S_l. rewrite Rplus_assoc, <- rsum_plus. rewrite !jac_0. change (up_d1 a b 0) with 1. f_equal; [ring|]. apply rsum_ext. intros i _. rewrite (jac_up_i a b i x Ha Hb). ring.
Qed.
Lemma flip_length v : length (flip_odd v) = length v. Proof. apply mk_length. Qed.
Lemma flip_nth v i : nth i (flip_odd v) 0 = (if Nat.even i then 1 else -1) * nth i v 0.
Proof.
  destruct (le_lt_dec (length v) i) as [G|G]; [rewrite !nth_overflow by (rewrite ?flip_length; exact G); ring|]. unfold flip_odd. rewrite nth_mk by exact G. destruct (Nat.even i); ring.
Qed.
Lemma flip_flip v : flip_odd (flip_odd v) = v.
Proof. apply list_ext with 0; [now rewrite !flip_length|]. intros k _. rewrite !flip_nth. destruct (Nat.even k); ring. Qed.
Lemma right_length v a b : length (right_jacobi v a b) = length v. Proof. unfold right_jacobi. now rewrite flip_length, up_length, flip_length. Qed.
Lemma even_S i : (if Nat.even (S i) then 1 else -1) = - (if Nat.even i then 1 else -1).
Proof. rewrite Nat.even_succ, <- Nat.negb_even. destruct (Nat.even i); cbn; lra. Qed.
Lemma right_nth v a b i : (i < length v)%nat -> nth i (right_jacobi v a b) 0 = up_d1 b a i * nth i v 0 - if Nat.ltb i (length v - 1) then up_d2 b a i * nth (S i) v 0 else 0.
Proof.
  intros Hi. unfold right_jacobi. rewrite flip_nth. unfold up_jacobi. rewrite nth_mk by (rewrite flip_length; exact Hi). rewrite flip_length, !flip_nth, even_S.
  destruct (Nat.even i), (Nat.ltb i (length v - 1)); ring.
Qed.
Lemma right_eval v a b x : -1 < a -> -1 < b -> evalJ (a + 1) b (right_jacobi v a b) x = evalJ a b v x.
Proof.
  intros Ha Hb. unfold evalJ. rewrite right_length. destruct (length v) as [|n] eqn:L; [reflexivity|].
  rewrite (rsum_ext (S n) _ (fun i => up_d1 b a i * nth i v 0 * jac i (a + 1) b x + (if Nat.ltb i n then - (up_d2 b a i * nth (S i) v 0 * jac i (a + 1) b x) else 0))).
  2:{ intros i Hi. rewrite right_nth by lia. rewrite L. replace (S n - 1)%nat with n by lia. destruct (Nat.ltb i n); ring. }
  rewrite rsum_plus. rewrite (rsum_extend n (S n) (fun i => if Nat.ltb i n then _ else 0)); [|lia|intros k Hk; destruct (Nat.ltb_spec k n); [lia|reflexivity]].
  rewrite (rsum_ext n (fun i => if Nat.ltb i n then _ else 0) (fun i => - (up_d2 b a i * nth (S i) v 0 * jac i (a + 1) b x))) by (intros i Hi; destruct (Nat.ltb_spec i n); [reflexivity|lia]).
  rewrite !rsum_S_l. rewrite Rplus_assoc, <- rsum_plus. rewrite !jac_0. change (up_d1 b a 0) with 1. f_equal; [ring|]. apply rsum_ext. intros i _. rewrite (jac_right_i a b i x Ha Hb). ring.
Qed.

(** ** the inverse steps *)
Lemma down_top_S a b i : down_top a b (S i) = down_top a b i * ((a + 1 + INR i) / (a + b + 2 + INR i)).
Proof.
  destruct i as [|k]; [cbn [down_top INR]; rewrite Rmult_1_l, !Rplus_0_r; reflexivity|].
  change (down_top a b (S (S k))) with (down_top a b (S k) * ((a + 2 + INR k) / (a + b + 3 + INR k))). rewrite S_INR. apply f_equal2; [reflexivity|]. apply f_equal2; ring.
Qed.
Lemma down_top_pos a b i : -1 < a -> -1 < b -> 0 < down_top a b i.
Proof.
  intros Ha Hb. induction i as [|i IH]; [cbn; lra|]. rewrite down_top_S. assert (P := pos_INR i). apply Rmult_lt_0_compat; [exact IH|]. apply Rdiv_lt_0_compat; lra.
Qed.
Lemma down_sign_2 n i : (n <> 1)%nat -> down_sign n i = (-1) ^ i.
Proof. intros H. unfold down_sign. destruct (Nat.eqb_spec n 1); [contradiction|reflexivity]. Qed.
Lemma sign_cases i : (-1) ^ i = 1 \/ (-1) ^ i = -1.
Proof. induction i as [|i [H|H]]; cbn [pow]; [left; reflexivity|right; rewrite H; ring|left; rewrite H; ring]. Qed.
Lemma down_ratio_S a b n i : (n <> 1)%nat -> -1 < a -> -1 < b ->
  down_ratio a b n (S i) = (2 * INR (S i) + a + b + 1) / (INR (S i) + a + b + 1) / ((-1) ^ S i * down_top a b (S i)).
Proof.
  intros Hn Ha Hb. destruct i as [|k].
  - cbn [down_ratio down_top pow]. change (INR 1) with 1. field. lra.
  - cbn [down_ratio]. rewrite down_sign_2 by exact Hn. assert (P := pos_INR k). assert (D := down_top_pos a b (S (S k)) Ha Hb). rewrite !S_INR.
    assert ((-1) ^ S (S k) <> 0) by (destruct (sign_cases (S (S k))) as [->| ->]; lra). field. repeat split; lra.
Qed.
Lemma down_length v a b : (2 <= length v)%nat -> length (down_jacobi v a b) = length v.
Proof. intros H. unfold down_jacobi. rewrite mk_length. lia. Qed.
Lemma up_down v a b : (2 <= length v)%nat -> -1 < a -> -1 < b -> up_jacobi (down_jacobi v a b) a b = v.
Proof.
  intros Hn Ha Hb. apply list_ext with 0; [rewrite up_length, down_length by exact Hn; reflexivity|]. rewrite up_length, down_length by exact Hn. intros i Hi.
  set (n := length v) in *. set (S' := fun i => rsum (n - i) (fun k => (-1) ^ (i + k) * down_top a b (i + k) * nth (i + k) v 0)).
  assert (ED : forall i, (i < n)%nat -> nth i (down_jacobi v a b) 0 = down_ratio a b n i * S' i).
  { intros k Hk. unfold down_jacobi. fold n. replace (Nat.max n 2) with n by lia. rewrite nth_mk by exact Hk. f_equal. unfold S'. apply rsum_ext. intros l _. rewrite down_sign_2 by lia. destruct (Nat.eqb_spec n 1); [lia|reflexivity]. }
  assert (ES : forall i, (i < n)%nat -> S' i = (-1) ^ i * down_top a b i * nth i v 0 + S' (S i)).
  { intros k Hk. unfold S'. replace (n - k)%nat with (S (n - S k)) by lia. rewrite rsum_S_l, Nat.add_0_r. f_equal. apply rsum_ext. intros l _. replace (k + S l)%nat with (S k + l)%nat by lia. reflexivity. }
  assert (E0 : S' n = 0) by (unfold S'; rewrite Nat.sub_diag; reflexivity).
  unfold up_jacobi. rewrite nth_mk by (rewrite down_length by exact Hn; exact Hi). rewrite down_length by exact Hn. fold n.
  assert (P := pos_INR i). assert (D0 := down_top_pos a b i Ha Hb). assert (SG := sign_cases i). set (s := (-1) ^ i) in *.
  assert (A1 : up_d1 a b i * down_ratio a b n i = 1 / (s * down_top a b i)).
  { destruct i as [|i].
    - cbn [up_d1 down_ratio down_top]. unfold s. cbn [pow]. field.
    - rewrite up_d1_S, down_ratio_S by (try assumption; lia). fold s. rewrite S_INR in *. assert (Q := pos_INR i). field. repeat split; try lra. }
  assert (A2 : up_d2 a b i * down_ratio a b n (S i) = - (1 / (s * down_top a b i))).
  { rewrite down_ratio_S by (try assumption; lia). unfold up_d2. rewrite down_top_S, S_INR. cbn [pow]. fold s. field. repeat split; lra. }
  rewrite ED by exact Hi. destruct (Nat.ltb_spec i (n - 1)) as [L|L].
  - rewrite ED by lia. rewrite <- !Rmult_assoc, A1, A2, (ES i Hi). fold s. field. lra.
  - rewrite <- Rmult_assoc, A1, (ES i Hi). replace (S i) with n by lia. rewrite E0. fold s. field. lra.
Qed.
Lemma down_eval v a b x : (2 <= length v)%nat -> -1 < a -> -1 < b -> evalJ a b (down_jacobi v a b) x = evalJ a (b + 1) v x.
Proof. intros Hn Ha Hb. rewrite <- (up_eval (down_jacobi v a b)) by assumption. now rewrite up_down. Qed.
Lemma left_length v a b : (2 <= length v)%nat -> length (left_jacobi v a b) = length v.
Proof. intros H. unfold left_jacobi. now rewrite flip_length, down_length, flip_length by (rewrite flip_length; exact H). Qed.
Lemma left_eval v a b x : (2 <= length v)%nat -> -1 < a -> -1 < b -> evalJ a b (left_jacobi v a b) x = evalJ (a + 1) b v x.
Proof.
  intros Hn Ha Hb. rewrite <- (right_eval (left_jacobi v a b)) by assumption. unfold right_jacobi, left_jacobi. rewrite flip_flip, up_down, flip_flip; try assumption; [reflexivity|rewrite flip_length; exact Hn].
Qed.

(** ** the loops *)
Lemma Rleb_t x y : x <= y -> Rleb x y = true. Proof. apply Rleb_true. Qed.
Lemma right_loop_spec d : forall fuel v al be, (d < fuel)%nat -> -1 < al -> -1 < be ->
  exists r, right_loop fuel v al be (al + INR d) = Some (r, al + INR d) /\ length r = length v /\ forall x, evalJ (al + INR d) be r x = evalJ al be v x.
Proof.
  induction d as [|d IH]; intros fuel v al be Hf Ha Hb; (destruct fuel as [|fuel]; [lia|]); cbn [right_loop].
  - change (INR 0) with 0. rewrite Rplus_0_r. replace (Rleb al (al - 1)) with false by (symmetry; apply Rleb_false; lra). exists v. auto.
  - rewrite S_INR. assert (P := pos_INR d). rewrite Rleb_t by lra. destruct (IH fuel (right_jacobi v al be) (al + 1) be ltac:(lia) ltac:(lra) Hb) as (r & E & L & V).
    replace (al + (INR d + 1)) with (al + 1 + INR d) by ring. exists r. split; [exact E|]. split; [rewrite L; apply right_length|]. intros x. rewrite V. now apply right_eval.
Qed.
Lemma up_loop_spec d : forall fuel v al be, (d < fuel)%nat -> -1 < al -> -1 < be ->
  exists r, up_loop fuel v al be (be + INR d) = Some (r, be + INR d) /\ length r = length v /\ forall x, evalJ al (be + INR d) r x = evalJ al be v x.
Proof.
  induction d as [|d IH]; intros fuel v al be Hf Ha Hb; (destruct fuel as [|fuel]; [lia|]); cbn [up_loop].
  - change (INR 0) with 0. rewrite Rplus_0_r. replace (Rleb be (be - 1)) with false by (symmetry; apply Rleb_false; lra). exists v. auto.
  - rewrite S_INR. assert (P := pos_INR d). rewrite Rleb_t by lra. destruct (IH fuel (up_jacobi v al be) al (be + 1) ltac:(lia) Ha ltac:(lra)) as (r & E & L & V).
    replace (be + (INR d + 1)) with (be + 1 + INR d) by ring. exists r. split; [exact E|]. split; [rewrite L; apply up_length|]. intros x. rewrite V. now apply up_eval.
Qed.
Lemma left_loop_spec d : forall fuel v al be, (d < fuel)%nat -> (2 <= length v)%nat -> -1 < al - INR d -> -1 < be ->
  exists r, left_loop fuel v al be (al - INR d) = Some (r, al - INR d) /\ length r = length v /\ forall x, evalJ (al - INR d) be r x = evalJ al be v x.
Proof.
  induction d as [|d IH]; intros fuel v al be Hf Hn Ha Hb; (destruct fuel as [|fuel]; [lia|]); cbn [left_loop].
  - change (INR 0) with 0 in *. rewrite Rminus_0_r in *. replace (Rleb (al + 1) al) with false by (symmetry; apply Rleb_false; lra). exists v. auto.
  - rewrite S_INR in *. assert (P := pos_INR d). rewrite Rleb_t by lra. destruct (IH fuel (left_jacobi v (al - 1) be) (al - 1) be ltac:(lia) ltac:(rewrite left_length; assumption) ltac:(lra) Hb) as (r & E & L & V).
    replace (al - (INR d + 1)) with (al - 1 - INR d) by ring. exists r. split; [exact E|]. split; [rewrite L; now apply left_length|]. intros x. rewrite V, left_eval by (try assumption; lra). f_equal. ring.
Qed.
Lemma down_loop_spec d : forall fuel v al be, (d < fuel)%nat -> (2 <= length v)%nat -> -1 < al -> -1 < be - INR d ->
  exists r, down_loop fuel v al be (be - INR d) = Some (r, be - INR d) /\ length r = length v /\ forall x, evalJ al (be - INR d) r x = evalJ al be v x.
Proof.
  induction d as [|d IH]; intros fuel v al be Hf Hn Ha Hb; (destruct fuel as [|fuel]; [lia|]); cbn [down_loop].
  - change (INR 0) with 0 in *. rewrite Rminus_0_r in *. replace (Rleb (be + 1) be) with false by (symmetry; apply Rleb_false; lra). exists v. auto.
  - rewrite S_INR in *. assert (P := pos_INR d). rewrite Rleb_t by lra. destruct (IH fuel (down_jacobi v al (be - 1)) al (be - 1) ltac:(lia) ltac:(rewrite down_length; assumption) Ha ltac:(lra)) as (r & E & L & V).
    replace (be - (INR d + 1)) with (be - 1 - INR d) by ring. exists r. split; [exact E|]. split; [rewrite L; now apply down_length|]. intros x. rewrite V, down_eval by (try assumption; lra). f_equal. ring.
Qed.
(** a loop that does nothing *)
Lemma right_loop_0 fuel v al be g : (0 < fuel)%nat -> g - 1 < al -> right_loop fuel v al be g = Some (v, al).
Proof. intros Hf H. destruct fuel; [lia|]. cbn [right_loop]. replace (Rleb al (g - 1)) with false by (symmetry; apply Rleb_false; lra). reflexivity. Qed.
Lemma left_loop_0 fuel v al be g : (0 < fuel)%nat -> al < g + 1 -> left_loop fuel v al be g = Some (v, al).
Proof. intros Hf H. destruct fuel; [lia|]. cbn [left_loop]. replace (Rleb (g + 1) al) with false by (symmetry; apply Rleb_false; lra). reflexivity. Qed.
Lemma up_loop_0 fuel v al be g : (0 < fuel)%nat -> g - 1 < be -> up_loop fuel v al be g = Some (v, be).
Proof. intros Hf H. destruct fuel; [lia|]. cbn [up_loop]. replace (Rleb be (g - 1)) with false by (symmetry; apply Rleb_false; lra). reflexivity. Qed.
Lemma down_loop_0 fuel v al be g : (0 < fuel)%nat -> be < g + 1 -> down_loop fuel v al be g = Some (v, be).
Proof. intros Hf H. destruct fuel; [lia|]. cbn [down_loop]. replace (Rleb (g + 1) be) with false by (symmetry; apply Rleb_false; lra). reflexivity. Qed.
Lemma check_ok x : Rltb (/ 10 ^ 15) (Rabs (x - x)) = false.
Proof. apply Rltb_false. rewrite Rminus_eq_0, Rabs_R0. left. apply Rinv_0_lt_compat, pow_lt. lra. Qed.

Lemma jac2jac_up fuel v d a : (d < fuel)%nat -> -1 < a ->
  exists r, jac2jac fuel v a a (a + INR d) (a + INR d) = Some r /\ length r = length v /\ forall x, evalJ (a + INR d) (a + INR d) r x = evalJ a a v x.
Proof.
  intros Hf Ha. assert (P := pos_INR d). unfold jac2jac, jacobi_conversion.
  destruct (right_loop_spec d fuel v a a Hf Ha Ha) as (r1 & -> & L1 & V1). rewrite left_loop_0 by (try lia; lra).
  destruct (up_loop_spec d fuel r1 (a + INR d) a Hf ltac:(lra) Ha) as (r2 & -> & L2 & V2). rewrite down_loop_0 by (try lia; lra). rewrite !check_ok.
  exists r2. split; [reflexivity|]. split; [congruence|]. intros x. now rewrite V2, V1.
Qed.
Lemma jac2jac_down fuel v d a : (d < fuel)%nat -> -1 < a - INR d -> (2 <= length v)%nat ->
  exists r, jac2jac fuel v a a (a - INR d) (a - INR d) = Some r /\ length r = length v /\ forall x, evalJ (a - INR d) (a - INR d) r x = evalJ a a v x.
Proof.
  intros Hf Ha Hn. assert (P := pos_INR d). unfold jac2jac, jacobi_conversion. rewrite right_loop_0 by (try lia; lra).
  destruct (left_loop_spec d fuel v a a Hf Hn Ha ltac:(lra)) as (r1 & -> & L1 & V1). rewrite up_loop_0 by (try lia; lra).
  destruct (down_loop_spec d fuel r1 (a - INR d) a Hf ltac:(lia) Ha Ha) as (r2 & -> & L2 & V2). rewrite !check_ok.
  exists r2. split; [reflexivity|]. split; [congruence|]. intros x. now rewrite V2, V1.
Qed.
(** one row: two rows come back, the function is v0 + v0 (2 lam+1)/2 x with lam = a + 1/2 *)
Lemma left_one v0 a : -1 < a - 1 -> exists r, left_jacobi [v0] (a - 1) a = r /\ length r = 2%nat /\ forall x, evalJ (a - 1) a r x = v0 + v0 * (a + 1) * x.
Proof.
  intros Ha. eexists. split; [reflexivity|]. unfold left_jacobi. split; [rewrite flip_length; unfold down_jacobi; rewrite mk_length; reflexivity|].
  intros x. unfold evalJ. rewrite flip_length. assert (F : flip_odd [v0] = [v0]) by reflexivity. rewrite F. unfold down_jacobi. rewrite mk_length. change (Nat.max (length [v0]) 2) with 2%nat. cbn [rsum]. rewrite !flip_nth. rewrite !nth_mk by lia.
  cbn [Nat.sub rsum Nat.add length Nat.eqb nth Nat.even down_ratio down_top]. unfold down_sign. cbn [Nat.eqb]. rewrite jac_0, jac_1. field. lra.
Qed.
Lemma jac2jac_down_one fuel v0 d a : (S d < fuel)%nat -> -1 < a - INR (S d) ->
  exists r, jac2jac fuel [v0] a a (a - INR (S d)) (a - INR (S d)) = Some r /\ length r = 2%nat /\ nth 0 r 0 = v0.
Proof.
  intros Hf Ha. assert (P := pos_INR d). rewrite S_INR in *. unfold jac2jac, jacobi_conversion. rewrite right_loop_0 by (try lia; lra).
  destruct fuel as [|fuel]; [lia|]. cbn [left_loop]. rewrite Rleb_t by lra.
  destruct (left_one v0 a ltac:(lra)) as (r0 & -> & L0 & V0). replace (a - (INR d + 1)) with (a - 1 - INR d) by ring.
  destruct (left_loop_spec d fuel r0 (a - 1) a ltac:(lia) ltac:(lia) ltac:(lra) ltac:(lra)) as (r1 & -> & L1 & V1). rewrite up_loop_0 by (try lia; lra).
  replace (a - 1 - INR d) with (a - INR (S d)) by (rewrite S_INR; ring).
  destruct (down_loop_spec (S d) (S fuel) r1 (a - INR (S d)) a ltac:(lia) ltac:(lia) ltac:(rewrite S_INR; lra) ltac:(rewrite S_INR; lra)) as (r2 & -> & L2 & V2). rewrite !check_ok.
  exists r2. split; [reflexivity|]. split; [lia|].
  assert (E := V2 0). replace (a - INR (S d)) with (a - 1 - INR d) in E by (rewrite S_INR; ring). rewrite V1, V0 in E. unfold evalJ in E. rewrite L2, L1, L0 in E. cbn [rsum] in E. rewrite jac_0, jac_1 in E. lra.
Qed.

(** ** the conversion *)
Lemma evalU_evalJ lam c x : evalJ (INR lam - / 2) (INR lam - / 2) (mk (length c) (fun i => nth i c 0 / scl lam i)) x = evalU lam c x.
Proof.
  rewrite evalJ_mk. unfold evalU. apply rsum_ext. intros i _. rewrite jac_ubasis. assert (S0 := scl_pos lam i). field. lra.
Qed.
Lemma evalJ_evalU lam r x : evalU lam (mk (length r) (fun i => nth i r 0 * scl lam i)) x = evalJ (INR lam - / 2) (INR lam - / 2) r x.
Proof.
  unfold evalU. rewrite mk_length. unfold evalJ. apply rsum_ext. intros i Hi. rewrite nth_mk by exact Hi. rewrite jac_ubasis. ring.
Qed.
Theorem ultra2ultra_col_correct c lam_in lam_out : (1 <= length c)%nat ->
  exists r, ultra2ultra_col c lam_in lam_out = Some r /\ length r = length c /\ forall x, evalU lam_out r x = evalU lam_in c x.
Proof.
  intros Hc. unfold ultra2ultra_col. set (c1 := mk (length c) _). assert (L1 : length c1 = length c) by apply mk_length.
  assert (Pi := pos_INR lam_in). assert (Po := pos_INR lam_out).
  destruct (Nat.eq_dec (length c) 1) as [E1|N1].
  - (* one row *)
    destruct c as [|v0 [|]]; cbn in E1; try lia. assert (EU : forall lam v x, evalU lam [v] x = v) by (intros lam v x; unfold evalU; cbn [length rsum nth]; rewrite ubasis_0; ring).
    assert (C1 : c1 = [v0]) by (unfold c1; cbn; f_equal; field). rewrite C1. cbn [length Nat.eqb]. 
    destruct (le_lt_dec lam_in lam_out) as [LE|GT].
    + replace (INR lam_out - / 2) with (INR lam_in - / 2 + INR (lam_out - lam_in)) by (rewrite minus_INR by lia; ring).
      destruct (jac2jac_up (lam_in + lam_out + 1) [v0] (lam_out - lam_in) (INR lam_in - / 2) ltac:(lia) ltac:(lra)) as (r & -> & Lr & Vr).
      assert (Lr1 : length r = 1%nat) by exact Lr. rewrite mk_length, Lr1. cbn [Nat.eqb]. eexists. split; [reflexivity|]. split; [reflexivity|]. intros x. destruct r as [|r0 [|]]; cbn in Lr1; try lia.
      specialize (Vr 0). unfold evalJ in Vr. cbn [length rsum nth] in Vr. rewrite !jac_0 in Vr. cbn [mk seq map nth scl]. rewrite !EU. lra.
    + replace (INR lam_out - / 2) with (INR lam_in - / 2 - INR (lam_in - lam_out)) by (rewrite minus_INR by lia; ring). replace (lam_in - lam_out)%nat with (S (lam_in - lam_out - 1)) by lia.
      destruct (jac2jac_down_one (lam_in + lam_out + 1) v0 (lam_in - lam_out - 1) (INR lam_in - / 2) ltac:(lia)) as (r & -> & Lr & Vr).
      { replace (S (lam_in - lam_out - 1)) with (lam_in - lam_out)%nat by lia. rewrite minus_INR by lia. lra. }
      rewrite mk_length, Lr. cbn [Nat.eqb]. destruct r as [|r0 [|r1 [|]]]; cbn in Lr; try lia. cbn [nth] in Vr. subst r0.
      eexists. split; [reflexivity|]. split; [reflexivity|]. intros x. cbn [mk seq map nth scl firstn]. rewrite !EU. ring.
  - assert (H2 : (2 <= length c)%nat) by lia. destruct (Nat.eqb_spec (length c) 1) as [|_]; [contradiction|].
    assert (G : exists r, jac2jac (lam_in + lam_out + 1) c1 (INR lam_in - / 2) (INR lam_in - / 2) (INR lam_out - / 2) (INR lam_out - / 2) = Some r /\ length r = length c1 /\
      forall x, evalJ (INR lam_out - / 2) (INR lam_out - / 2) r x = evalJ (INR lam_in - / 2) (INR lam_in - / 2) c1 x).
    { destruct (le_lt_dec lam_in lam_out) as [LE|GT].
      - replace (INR lam_out - / 2) with (INR lam_in - / 2 + INR (lam_out - lam_in)) by (rewrite minus_INR by lia; ring). apply jac2jac_up; [lia|lra].
      - replace (INR lam_out - / 2) with (INR lam_in - / 2 - INR (lam_in - lam_out)) by (rewrite minus_INR by lia; ring). apply jac2jac_down; [lia|rewrite minus_INR by lia; lra|lia]. }
    destruct G as (r & -> & Lr & Vr). rewrite mk_length. replace (Nat.eqb (length r) (length c)) with true by (symmetry; apply Nat.eqb_eq; lia).
    eexists. split; [reflexivity|]. split; [rewrite mk_length; lia|]. intros x. rewrite evalJ_evalU, Vr. unfold c1. apply evalU_evalJ.
Qed.
