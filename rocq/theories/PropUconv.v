(** Conversions between ultraspherical bases (C144-C146). *)
From Coq Require Import Reals ZArith List Arith Bool Lra Lia.
From Coquelicot Require Import Coquelicot.
From Verif Require Import Base ChebSpec ChebMath ChebModel ChebModel2 ChebEval ChebChop ChebObj RootsMin FunModel FunProofs UltraSpec UltraBasis UltraModel UltraProofs UconvModel UconvJac UconvProofs.
Import ListNotations.
Open Scope R_scope.

Lemma map_option_spec {A B} (f : A -> option B) (P : A -> B -> Prop) l : (forall x, In x l -> exists y, f x = Some y /\ P x y) -> exists r, map_option f l = Some r /\ Forall2 P l r.
Proof.
  induction l as [|x l IH]; intros H; cbn [map_option]; [exists []; split; [reflexivity|constructor]|].
  destruct (H x (or_introl eq_refl)) as (y & -> & Py). destruct IH as (r & -> & Pr); [intros z Hz; apply H; now right|]. exists (y :: r). split; [reflexivity|constructor; assumption].
Qed.
Lemma Forall2_nth' {A B} (P : A -> B -> Prop) l r d e j : Forall2 P l r -> (j < length l)%nat -> P (nth j l d) (nth j r e).
Proof. intros H. revert j. induction H as [|x y l r Hxy H IH]; intros [|j] Hj; cbn in *; try lia; [exact Hxy|]. apply IH. lia. Qed.
Lemma skipn_add {A} (a b : nat) (l : list A) : skipn a (skipn b l) = skipn (b + a) l.
Proof. revert l. induction b as [|b IH]; intros l; [reflexivity|]. destruct l; [now rewrite !skipn_nil|]. cbn [Nat.add skipn]. apply IH. Qed.
Lemma Forall2_len {A B} (P : A -> B -> Prop) l r : Forall2 P l r -> length l = length r.
Proof. induction 1; cbn; congruence. Qed.
Lemma ultra2ultra_spec n A l1 l2 : rect n A -> exists B, ultra2ultra A l1 l2 = Some B /\ rect n B /\ length B = length A /\
  forall j x, (j < length A)%nat -> evalU l2 (nth j B []) x = evalU l1 (nth j A []) x.
Proof.
  intros [Hn [HA HF]]. rewrite Forall_forall in HF.
  destruct (map_option_spec (fun c => ultra2ultra_col c l1 l2) (fun c r => length r = n /\ forall x, evalU l2 r x = evalU l1 c x) A) as (B & EB & HB).
  - intros c Hc. destruct (ultra2ultra_col_correct c l1 l2) as (r & E & L & V); [rewrite HF by exact Hc; exact Hn|]. exists r. rewrite (HF c Hc) in L. auto.
  - exists B. assert (LB := Forall2_len _ _ _ HB). split; [exact EB|]. split; [|split; [congruence|intros j x Hj; apply (Forall2_nth' _ _ _ [] [] j HB Hj)]].
    split; [exact Hn|]. split; [destruct A; [congruence|destruct B; [discriminate|discriminate]]|]. clear - HB. induction HB; constructor; tauto.
Qed.

(** ** C144 *)
(** C144: ultra2ultra converts any number of columns of any length between any two bases and keeps the
    functions; the shape of the array is kept *)
Theorem C144_conversion : forall n A l1 l2, rect n A -> exists B, ultra2ultra A l1 l2 = Some B /\ rect n B /\ length B = length A /\
  forall j x, (j < length A)%nat -> evalU l2 (nth j B []) x = evalU l1 (nth j A []) x.
Proof. exact ultra2ultra_spec. Qed.
Print Assumptions C144_conversion.
(** from_ultra(v, k, lam): the function whose column j has the coefficients v[j m .. (j+1) m) in basis lam *)
Theorem C144_from_ultra : forall v k lam a b, (1 <= k)%nat -> (1 <= length v)%nat -> (length v mod k = 0)%nat -> a < b ->
  exists G, fun_from_ultra v k lam a b = Some G /\ fwf G /\ dom0 G = a /\ dom1 G = b /\ fcols G = k /\ flen G = (length v / k)%nat /\
    forall j x, (j < k)%nat -> fev G j x = evalU lam (firstn (length v / k) (skipn (j * (length v / k)) v)) ((2 * x - a - b) / (b - a)).
Proof.
  intros v k lam a b Hk Hv Hm Hd. unfold fun_from_ultra. destruct (Nat.eqb_spec k 0); [lia|]. rewrite Hm. cbn [Nat.eqb]. set (m := (length v / k)%nat).
  assert (E : length v = (m * k)%nat) by (unfold m; rewrite Nat.mul_comm; apply Nat.div_exact; lia). assert (Hq : (1 <= m)%nat) by nia.
  destruct (reshapeF_rect m k v E Hq Hk) as [RR LR]. destruct (ultra2ultra_spec m _ lam 0 RR) as (B & -> & RB & LB & VB).
  destruct (cheb_init_some _ _ eps_default (fun_hscale a b) maxLength_default false RB) as [hp [Ei _]]. rewrite Ei. cbn [option_map]. eexists. split; [reflexivity|].
  split; [split; [exists m; exact RB|exact Hd]|]. split; [reflexivity|]. split; [reflexivity|]. split; [unfold fcols, ncols; cbn [onefun coeffs]; congruence|].
  split; [unfold flen, len; cbn [onefun coeffs]; apply (rect_nrows _ _ RB)|].
  intros j x Hj. unfold fev, ev. cbn [onefun coeffs dom0 dom1]. rewrite LR in VB. rewrite <- evalU_0, VB by exact Hj. f_equal.
  clear - Hj. clearbody m. revert j v Hj. induction k as [|k IH]; intros j v Hj; [lia|]. cbn [reshapeF]. destruct j as [|j]; [reflexivity|]. cbn [nth]. rewrite IH by lia.
  f_equal. rewrite skipn_add. f_equal. 
Qed.
Print Assumptions C144_from_ultra.
(** uniqueness of the coefficients *)
Lemma evalU_inj n lam : forall c d, length c = n -> length d = n -> (2 <= n)%nat -> (forall x, evalU lam c x = evalU lam d x) -> c = d.
Proof.
  induction lam as [|lam IH]; intros c d Lc Ld Hn H.
  - apply list_ext with 0; [congruence|]. intros k _. apply coef_unique. intros x. rewrite <- !evalU_0. apply H.
  - rewrite <- (spconvert_inv_r n lam c), <- (spconvert_inv_r n lam d) by assumption. f_equal. apply IH; try apply matvec_length; [exact Hn|]. intros x.
    rewrite <- (spconvert_eval n lam (matvec n (spconvert_inv n lam) c) x Hn (matvec_length _ _ _)), <- (spconvert_eval n lam (matvec n (spconvert_inv n lam) d) x Hn (matvec_length _ _ _)).
    rewrite !spconvert_inv_r by assumption. apply H.
Qed.
Lemma evalU_unique lam c d : (1 <= length c)%nat -> length c = length d -> (forall x, evalU lam c x = evalU lam d x) -> c = d.
Proof.
  intros H1 L H. destruct (Nat.eq_dec (length c) 1) as [E|N]; [|apply (evalU_inj (length c) lam); auto; lia].
  destruct c as [|u [|]]; cbn in E; try lia. destruct d as [|w [|]]; cbn in L; try lia. f_equal. specialize (H 0). unfold evalU in H. cbn [length rsum nth] in H. rewrite ubasis_0 in H. lra.
Qed.
(** converting back gives the coefficients again *)
Theorem C144_roundtrip : forall c l1 l2, (1 <= length c)%nat -> exists r, ultra2ultra_col c l1 l2 = Some r /\ ultra2ultra_col r l2 l1 = Some c.
Proof.
  intros c l1 l2 Hc. destruct (ultra2ultra_col_correct c l1 l2 Hc) as (r & E & L & V). exists r. split; [exact E|].
  destruct (ultra2ultra_col_correct r l2 l1 ltac:(lia)) as (s & E' & L' & V'). rewrite E'. f_equal. apply (evalU_unique l1); [lia|lia|]. intros x. now rewrite V', V.
Qed.
Print Assumptions C144_roundtrip.
Example ex_C144 : rect 3 [[1; 2; 3]; [0; 0; 1]] /\ (6 mod 2 = 0)%nat.
Proof. split; [|reflexivity]. split; [lia|]. split; [discriminate|]. repeat constructor. Qed.

(** ** C145 *)
(** C145: with equal bases the argument array is unchanged *)
Theorem C145_argument_partial : forall A l, ultra2ultra_arg A l l = A.
Proof.
  intros A l. unfold ultra2ultra_arg. rewrite Nat.eqb_refl. rewrite <- (map_id A) at 2. apply map_ext. intros c. cbv zeta. apply list_ext with 0; [apply mk_length|]. rewrite mk_length. intros k Hk. rewrite !nth_mk by exact Hk.
  assert (S := scl_pos l k). field. lra.
Qed.
Print Assumptions C145_argument_partial.
(** otherwise it is overwritten: row i is divided by scl(lam_in, i), odd rows change sign; the array
    survives only if all rows but the first are zero *)
Theorem C145_overwritten_refuted : forall c l1 l2 i, l1 <> l2 -> (i < length c)%nat ->
  nth i (nth 0 (ultra2ultra_arg [c] l1 l2) []) 0 = (-1) ^ i * nth i c 0 / scl l1 i.
Proof.
  intros c l1 l2 i Hl Hi. unfold ultra2ultra_arg. destruct (Nat.eqb_spec l1 l2); [contradiction|]. cbn [map nth]. rewrite flip_nth. rewrite nth_mk by exact Hi.
  replace (if Nat.even i then 1 else -1) with ((-1) ^ i); [unfold Rdiv; ring|]. clear. induction i as [|i IH]; [reflexivity|]. rewrite even_S, <- IH. cbn [pow]. ring.
Qed.
Print Assumptions C145_overwritten_refuted.
(** from_ultra([1,1,1], 1, 1) leaves [1, -4/3, 8/5] in the caller's array *)
Theorem C145_from_ultra_refuted : fun_from_ultra_arg [1; 1; 1] 1 1 = [1; - (4 / 3); 8 / 5].
Proof.
  change (fun_from_ultra_arg [1; 1; 1] 1 1) with (concat [flip_odd (mk 3 (fun i => nth i [1; 1; 1] 0 / scl 1 i))]).
  cbn [concat]. rewrite app_nil_r. unfold flip_odd. rewrite mk_length. unfold mk. cbn [seq map Nat.even nth scl INR Nat.mul Nat.add].
  apply f_equal2; [field|]. apply f_equal2; [field|]. apply f_equal2; [field|reflexivity].
Qed.
Print Assumptions C145_from_ultra_refuted.
Example ex_C145 : (0 <> 1)%nat /\ (1 < length [1; 1])%nat.
Proof. split; [lia|cbn; lia]. Qed.

(** ** C146 *)
(** C146: for two or more coefficients ultra2ultra(c, K1, K2+1) and the conversion matrix give the same
    coefficients, and ultra2ultra(c, K2+1, K1) and the inverse conversion matrix too *)
Theorem C146_matrix_agrees : forall c n K1 K2, length c = n -> (2 <= n)%nat -> (K1 <= K2)%nat ->
  ultra2ultra_col c K1 (K2 + 1) = Some (matvec n (convertmat n K1 K2) c) /\
  ultra2ultra_col c (K2 + 1) K1 = Some (matvec n (convertmat_inv n K1 K2) c).
Proof.
  intros c n K1 K2 Lc Hn HK. split.
  - destruct (ultra2ultra_col_correct c K1 (K2 + 1) ltac:(lia)) as (r & E & L & V). rewrite E. f_equal. apply (evalU_unique (K2 + 1)); [lia|rewrite matvec_length; lia|].
    intros x. rewrite V. destruct (convertmat_correct n K1 K2 c x Hn Lc) as [_ Q]. rewrite Nat.max_r in Q by lia. now rewrite Q.
  - destruct (ultra2ultra_col_correct c (K2 + 1) K1 ltac:(lia)) as (r & E & L & V). rewrite E. f_equal. set (d := matvec n (convertmat_inv n K1 K2) c). apply (evalU_unique K1); [lia|unfold d; rewrite matvec_length; lia|].
    intros x. rewrite V. assert (Ld : length d = n) by apply matvec_length. destruct (convertmat_correct n K1 K2 d x Hn Ld) as [_ Q]. rewrite Nat.max_r in Q by lia. rewrite <- Q. unfold d. rewrite convertmat_inv_r by assumption. reflexivity.
Qed.
Print Assumptions C146_matrix_agrees.
Example ex_C146 : length [1; 2; 3] = 3%nat /\ (2 <= 3)%nat /\ (0 <= 1)%nat.
Proof. repeat split; lia. Qed.
