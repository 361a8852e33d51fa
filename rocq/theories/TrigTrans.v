(** Fourier transforms between values and coefficients, and evaluation. *)
From Coq Require Import Reals ZArith List Arith Lia Lra Bool.
From Coquelicot Require Import Coquelicot.
From Verif Require Import Base ToolsProofs TrigSpec TrigBase TrigModel.
Import ListNotations.
Open Scope R_scope.
Open Scope C_scope.

Definition W (n j k : nat) : C := cis (PI * IZR (freq n k) * gridpt n j).
Definition Vsum (c : list C) (j : nat) : C := csum (length c) (fun k => nth k c C0 * W (length c) j k).

Lemma INR_pos n : (1 <= n)%nat -> (0 < INR n)%R. Proof. intros. apply lt_0_INR. lia. Qed.
Lemma RtoC_neq r : r <> 0%R -> RtoC r <> RtoC 0. Proof. intros H E. injection E. assumption. Qed.
Lemma freq_range n k : (k < n)%nat -> (- Z.of_nat n < freq n k < Z.of_nat n)%Z.
Proof. intros H. unfold freq. assert (n / 2 <= n)%nat by (apply Nat.div_le_upper_bound; lia). assert (2 * (n/2) <= n)%nat by (apply Nat.mul_div_le; lia). lia. Qed.
Lemma freq_inj n k l : freq n k = freq n l -> k = l. Proof. unfold freq. lia. Qed.

Lemma cis_PI_Z z : cis (PI * IZR z) = if Z.even z then RtoC 1 else RtoC (-1).
Proof.
  destruct (Z.even z) eqn:E.
  - apply Z.even_spec in E. destruct E as [q ->]. rewrite <- cis_0. apply (cis_cong _ _ q). rewrite mult_IZR. ring.
  - assert (O : Z.odd z = true) by (rewrite <- Z.negb_even, E; reflexivity). apply Z.odd_spec in O. destruct O as [q ->].
    rewrite (cis_cong _ PI q) by (rewrite plus_IZR, mult_IZR; ring). unfold cis. rewrite cos_PI, sin_PI. reflexivity.
Qed.
Lemma eofix_cis n k : eofix n k = cis (PI * IZR (freq n k)).
Proof. unfold eofix. symmetry. apply cis_PI_Z. Qed.
Lemma eofix_cis' n k : eofix n k = cis (- (PI * IZR (freq n k))).
Proof. rewrite eofix_cis. apply (cis_cong _ _ (freq n k)). ring. Qed.
Lemma eofix_conj n k : Cconj (eofix n k) = eofix n k.
Proof. unfold eofix. destruct (Z.even _); apply Cconj_R. Qed.
Lemma eofix_sq n k : eofix n k * eofix n k = RtoC 1.
Proof. unfold eofix. destruct (Z.even _); apply injective_projections; cbn; ring. Qed.

Lemma W_split n j k : (1 <= n)%nat -> W n j k = eofix n k * cis (2 * PI * INR j * IZR (freq n k) / INR n).
Proof. intros H. rewrite eofix_cis', <- cis_plus. unfold W, gridpt. f_equal. field. apply Rgt_not_eq, INR_pos, H. Qed.

(** the shifted index has the right frequency *)
Lemma shift_cis n j k : (1 <= n)%nat -> (k < n)%nat ->
  cis (2 * PI * INR j * INR ((k + (n - n / 2)) mod n) / INR n) = cis (2 * PI * INR j * IZR (freq n k) / INR n).
Proof.
  intros Hn Hk. assert (Hd : (n / 2 <= n)%nat) by (apply Nat.div_le_upper_bound; lia).
  set (q := ((k + (n - n / 2)) / n)%nat).
  assert (E : (k + (n - n / 2) = n * q + (k + (n - n / 2)) mod n)%nat) by (apply Nat.div_mod; lia).
  apply (cis_cong _ _ (Z.of_nat j * (1 - Z.of_nat q))).
  assert (E2 : (Z.of_nat ((k + (n - n / 2)) mod n) = freq n k + Z.of_nat n * (1 - Z.of_nat q))%Z) by (unfold freq; nia).
  rewrite INR_IZR_INZ with (n := ((k + (n - n / 2)) mod n)%nat), E2, plus_IZR, mult_IZR, mult_IZR, <- !INR_IZR_INZ.
  field. apply Rgt_not_eq, INR_pos, Hn.
Qed.

Lemma raw_values c j : (1 <= length c)%nat -> (j < length c)%nat ->
  nth j (ifft (ifftshift (map (fun a => RtoC (INR (length c)) * a) (mk (length c) (fun k => eofix (length c) k * nth k c C0))))) C0 = Vsum c j.
Proof.
  intros Hn Hj. set (n := length c) in *. unfold ifft, ifftshift. rewrite !mk_length, !map_length, !mk_length.
  rewrite nth_mk by assumption.
  set (c' := map _ _).
  assert (Hc' : forall k, (k < n)%nat -> nth k c' C0 = RtoC (INR n) * (eofix n k * nth k c C0)).
  { intros k Hk. unfold c'. rewrite nth_indep with (d' := RtoC (INR n) * C0) by (rewrite map_length, mk_length; exact Hk).
    rewrite (map_nth (fun a => RtoC (INR n) * a)). rewrite nth_mk by exact Hk. reflexivity. }
  rewrite <- (csum_rot n (n - n / 2)). rewrite <- csum_scal. unfold Vsum. fold n. apply csum_ext. intros k Hk.
  assert (Hm : ((k + (n - n / 2)) mod n < n)%nat) by (apply Nat.mod_upper_bound; lia).
  rewrite nth_mk by exact Hm. rewrite Nat.add_mod_idemp_l by lia.
  assert (Hd : (n / 2 <= n)%nat) by (apply Nat.div_le_upper_bound; lia).
  replace (k + (n - n / 2) + n / 2)%nat with (k + 1 * n)%nat by lia. rewrite Nat.mod_add, Nat.mod_small by lia.
  rewrite Hc' by exact Hk. rewrite shift_cis by assumption. rewrite W_split by assumption.
  rewrite RtoC_inv by (apply Rgt_not_eq, INR_pos; assumption). field.
  apply RtoC_neq, Rgt_not_eq, INR_pos. assumption.
Qed.

Lemma W_wrap n k : (1 <= n)%nat -> W n n k = W n 0 k.
Proof.
  intros H. unfold W. apply (cis_cong _ _ (freq n k)). unfold gridpt. cbn [INR]. field.
  apply Rgt_not_eq, INR_pos, H.
Qed.
Lemma W_refl n j k : (1 <= n)%nat -> (j <= n)%nat -> W n (n - j) k = Cconj (W n j k).
Proof.
  intros H Hj. unfold W. rewrite <- cis_neg. apply f_equal. unfold gridpt. rewrite minus_INR by exact Hj.
  field. apply Rgt_not_eq, INR_pos, H.
Qed.
Lemma W_W n k l : (1 <= n)%nat -> (k < n)%nat -> (l < n)%nat ->
  csum n (fun j => W n j k * Cconj (W n j l)) = if Nat.eqb k l then RtoC (INR n) else RtoC 0.
Proof.
  intros Hn Hk Hl.
  rewrite (csum_ext n _ (fun t => cis (- (PI * IZR (freq n k - freq n l))) * cis (INR t * (2 * PI * IZR (freq n k - freq n l) / INR n)))).
  2:{ intros t Ht. unfold W. rewrite <- cis_neg, <- !cis_plus. apply f_equal. unfold gridpt. rewrite minus_IZR. field. apply Rgt_not_eq, INR_pos, Hn. }
  rewrite csum_scal, root_sum by (unfold freq; lia).
  destruct (Nat.eqb_spec k l) as [->|Hne].
  - rewrite Z.sub_diag. cbn [Z.eqb]. replace (- (PI * 0))%R with 0%R by ring. rewrite cis_0. ring.
  - destruct (Z.eqb_spec (freq n k - freq n l) 0) as [E|_]; [unfold freq in E; lia|]. ring.
Qed.
Lemma W_W' n j l : (1 <= n)%nat -> (j < n)%nat -> (l < n)%nat ->
  csum n (fun k => W n j k * Cconj (W n l k)) = if Nat.eqb j l then RtoC (INR n) else RtoC 0.
Proof.
  intros Hn Hj Hl.
  rewrite (csum_ext n _ (fun t => cis (- (2 * PI * IZR (Z.of_nat j - Z.of_nat l) * INR (n / 2) / INR n)) * cis (INR t * (2 * PI * IZR (Z.of_nat j - Z.of_nat l) / INR n)))).
  2:{ intros t Ht. unfold W. rewrite <- cis_neg, <- !cis_plus. apply f_equal. unfold gridpt, freq. rewrite !minus_IZR, <- !INR_IZR_INZ. field. apply Rgt_not_eq, INR_pos, Hn. }
  rewrite csum_scal, root_sum by lia.
  destruct (Nat.eqb_spec j l) as [->|Hne].
  - rewrite Z.sub_diag. cbn [Z.eqb]. replace (- (2 * PI * 0 * INR (n / 2) / INR n))%R with 0%R by (unfold Rdiv; ring). rewrite cis_0. ring.
  - destruct (Z.eqb_spec (Z.of_nat j - Z.of_nat l) 0) as [E|_]; [lia|]. ring.
Qed.

Lemma combine_rev_nth {A} (l : list A) i d : (i < length l)%nat -> nth i (combine l (rev l)) (d, d) = (nth i l d, nth (length l - 1 - i) l d).
Proof.
  intros H. rewrite combine_nth by (rewrite rev_length; reflexivity). f_equal. rewrite rev_nth by exact H. f_equal. lia.
Qed.
Lemma app_last_nth (v : list C) i : (i <= length v)%nat -> nth i (v ++ [nth 0 v C0]) C0 = if Nat.eqb i (length v) then nth 0 v C0 else nth i v C0.
Proof.
  intros H. destruct (Nat.eqb_spec i (length v)) as [->|Hne].
  - rewrite app_nth2, Nat.sub_diag by lia. reflexivity.
  - rewrite app_nth1 by lia. reflexivity.
Qed.
Lemma forallb_nth {A} (p : A -> bool) l d : forallb p l = true <-> (forall i, (i < length l)%nat -> p (nth i l d) = true).
Proof.
  rewrite forallb_forall. split.
  - intros H i Hi. apply H. apply nth_In. exact Hi.
  - intros H x Hx. destruct (In_nth _ _ d Hx) as [i [Hi <-]]. apply H. exact Hi.
Qed.
Lemma Reqb_true a b : Reqb a b = true <-> a = b.
Proof. unfold Reqb. destruct (Req_EM_T a b); split; intros; congruence. Qed.

Lemma Vsum_refl_real c j : (1 <= length c)%nat -> (j <= length c)%nat ->
  (forall k, (k < length c)%nat -> Cconj (eofix (length c) k * nth k c C0) = eofix (length c) k * nth k c C0) ->
  Cconj (Vsum c (length c - j)) = Vsum c j.
Proof.
  intros Hn Hj H. unfold Vsum. rewrite Cconj_csum. apply csum_ext. intros k Hk.
  rewrite Cconj_mult, W_refl, Cconj_conj by assumption.
  assert (E := H k Hk). rewrite Cconj_mult, eofix_conj in E.
  assert (E2 : Cconj (nth k c C0) = nth k c C0).
  { transitivity (eofix (length c) k * eofix (length c) k * Cconj (nth k c C0)); [rewrite eofix_sq; ring|].
    transitivity (eofix (length c) k * (eofix (length c) k * nth k c C0)); [rewrite <- E; ring|].
    transitivity (eofix (length c) k * eofix (length c) k * nth k c C0); [ring|]. rewrite eofix_sq. ring. }
  rewrite E2. reflexivity.
Qed.
Lemma Vsum_refl_imag c j : (1 <= length c)%nat -> (j <= length c)%nat ->
  (forall k, (k < length c)%nat -> Cconj (eofix (length c) k * nth k c C0) = - (eofix (length c) k * nth k c C0)) ->
  Cconj (Vsum c (length c - j)) = - Vsum c j.
Proof.
  intros Hn Hj H. unfold Vsum. rewrite Cconj_csum.
  transitivity ((- (1)) * csum (length c) (fun k => nth k c C0 * W (length c) j k)); [|ring]. rewrite <- csum_scal.
  apply csum_ext. intros k Hk.
  rewrite Cconj_mult, W_refl, Cconj_conj by assumption.
  assert (E := H k Hk). rewrite Cconj_mult, eofix_conj in E.
  assert (E2 : Cconj (nth k c C0) = - nth k c C0).
  { transitivity (eofix (length c) k * eofix (length c) k * Cconj (nth k c C0)); [rewrite eofix_sq; ring|].
    transitivity (eofix (length c) k * - (eofix (length c) k * nth k c C0)); [rewrite <- E; ring|].
    transitivity (- (eofix (length c) k * eofix (length c) k * nth k c C0)); [ring|]. rewrite eofix_sq. ring. }
  rewrite E2. ring.
Qed.
Lemma Vsum_wrap c : (1 <= length c)%nat -> Vsum c (length c) = Vsum c 0.
Proof. intros H. apply csum_ext. intros k Hk. rewrite W_wrap by exact H. reflexivity. Qed.

(** ** coefficients to values *)
Lemma coeffs2vals1_length c : length (coeffs2vals1 c) = length c.
Proof.
  unfold coeffs2vals1. destruct (Nat.leb_spec (length c) 1); [reflexivity|].
  set (values := ifft _). assert (Hl : length values = length c) by (unfold values, ifft, ifftshift; rewrite !mk_length, map_length, mk_length; reflexivity).
  assert (L : forall f : C * C -> C, length (firstn (length c) (map f (combine (values ++ [nth 0 values C0]) (rev (values ++ [nth 0 values C0]))))) = length c).
  { intros f. rewrite firstn_length, map_length, combine_length, rev_length, app_length, Hl. cbn [length]. lia. }
  destruct (forallb (fun a => Reqb (Rabs (Re a)) 0) _); [apply L|]. destruct (forallb _ _); [apply L|]. exact Hl.
Qed.
Lemma coeffs2vals1_Vsum c j : (2 <= length c)%nat -> (j < length c)%nat -> nth j (coeffs2vals1 c) C0 = Vsum c j.
Proof.
  intros Hn Hj. unfold coeffs2vals1. destruct (Nat.leb_spec (length c) 1); [lia|].
  set (c' := mk (length c) (fun k => eofix (length c) k * nth k c C0)).
  assert (Hc' : forall k, (k < length c)%nat -> nth k c' C0 = eofix (length c) k * nth k c C0) by (intros k Hk; unfold c'; rewrite nth_mk by exact Hk; reflexivity).
  assert (Hlc : length c' = length c) by apply mk_length.
  set (values := ifft _). assert (Hl : length values = length c) by (unfold values, ifft, ifftshift; rewrite !mk_length, map_length; exact Hlc).
  assert (HV : forall i, (i < length c)%nat -> nth i values C0 = Vsum c i) by (intros i Hi; apply raw_values; lia).
  assert (HV' : forall i, (i <= length c)%nat -> nth i (values ++ [nth 0 values C0]) C0 = Vsum c i).
  { intros i Hi. rewrite app_last_nth by lia. destruct (Nat.eqb_spec i (length values)) as [->|Hne].
    - rewrite Hl, Vsum_wrap by lia. apply HV. lia.
    - apply HV. lia. }
  assert (HN : forall f : C * C -> C, nth j (firstn (length c) (map f (combine (values ++ [nth 0 values C0]) (rev (values ++ [nth 0 values C0]))))) C0 = f (Vsum c j, Vsum c (length c - j))).
  { intros f. assert (L : length (values ++ [nth 0 values C0]) = S (length c)) by (rewrite app_length, Hl; cbn; lia).
    rewrite nth_firstn' by exact Hj.
    rewrite nth_indep with (d' := f (C0, C0)) by (rewrite map_length, combine_length, rev_length, L; lia).
    rewrite map_nth, combine_rev_nth by (rewrite L; lia). rewrite L. replace (S (length c) - 1 - j)%nat with (length c - j)%nat by lia.
    rewrite !HV' by lia. reflexivity. }
  destruct (forallb (fun a => Reqb (Rabs (Re a)) 0) c') eqn:Esk.
  - rewrite HN. cbn [fst snd]. rewrite Vsum_refl_imag.
    + apply injective_projections; cbn; field.
    + lia.
    + lia.
    + intros k Hk. rewrite (forallb_nth _ _ C0) in Esk. assert (E := Esk k ltac:(lia)). apply Reqb_true in E.
      rewrite Hc' in E by exact Hk. destruct (Req_dec (Re (eofix (length c) k * nth k c C0)) 0) as [E'|E']; [|exfalso; apply (Rabs_no_R0 _ E'); exact E].
      unfold Re in *. apply injective_projections; cbn [Cconj fst snd Copp]; [|reflexivity]. rewrite E'. ring.
  - destruct (forallb (fun a => Reqb (Rabs (Im a)) 0) c') eqn:Ehe.
    + rewrite HN. cbn [fst snd]. rewrite Vsum_refl_real.
      * apply injective_projections; cbn; field.
      * lia.
      * lia.
      * intros k Hk. rewrite (forallb_nth _ _ C0) in Ehe. assert (E := Ehe k ltac:(lia)). apply Reqb_true in E.
        rewrite Hc' in E by exact Hk. destruct (Req_dec (Im (eofix (length c) k * nth k c C0)) 0) as [E'|E']; [|exfalso; apply (Rabs_no_R0 _ E'); exact E].
        unfold Im in *. apply injective_projections; cbn [Cconj fst snd Copp]; [reflexivity|]. rewrite E'. ring.
    + apply HV. exact Hj.
Qed.

(** ** values to coefficients *)
Definition Usum (v : list C) (k : nat) : C :=
  RtoC (/ INR (length v)) * csum (length v) (fun j => nth j v C0 * Cconj (W (length v) j k)).

Lemma map_nth_C (f : C -> C) l i : (i < length l)%nat -> nth i (map f l) C0 = f (nth i l C0).
Proof. intros H. rewrite nth_indep with (d' := f C0) by (rewrite map_length; exact H). apply map_nth. Qed.

Lemma raw_coeffs v k : (1 <= length v)%nat -> (k < length v)%nat ->
  nth k (map (fun a => RtoC (/ INR (length v)) * a) (fftshift (fft v))) C0 = eofix (length v) k * Usum v k.
Proof.
  intros Hn Hk. set (n := length v) in *.
  assert (Lf : length (fft v) = n) by (unfold fft; apply mk_length).
  rewrite map_nth_C by (unfold fftshift; rewrite mk_length, Lf; exact Hk).
  unfold fftshift. rewrite Lf, nth_mk by exact Hk.
  assert (Hm : ((k + (n - n / 2)) mod n < n)%nat) by (apply Nat.mod_upper_bound; lia).
  unfold fft. fold n. rewrite nth_mk by exact Hm. unfold Usum. fold n.
  transitivity (RtoC (/ INR n) * (eofix n k * csum n (fun j => nth j v C0 * Cconj (W n j k)))); [|ring]. f_equal.
  rewrite <- csum_scal. apply csum_ext. intros j Hj.
  rewrite W_split, Cconj_mult, eofix_conj by exact Hn. rewrite cis_neg, shift_cis by assumption.
  transitivity (eofix n k * eofix n k * (nth j v C0 * Cconj (cis (2 * PI * INR j * IZR (freq n k) / INR n)))); [rewrite eofix_sq; ring|ring].
Qed.

(** reversing the sum over the grid, with the first point fixed *)
Lemma csum_refl n f : (1 <= n)%nat -> f n = f 0%nat -> csum n (fun j => f (n - j)%nat) = csum n f.
Proof.
  intros Hn H. destruct n as [|m]; [lia|]. rewrite csum_head. rewrite Nat.sub_0_r, H.
  rewrite csum_head. f_equal. rewrite <- (csum_rev m (fun k => f (S k))). apply csum_ext. intros k Hk. f_equal. lia.
Qed.

Lemma herm_unpack (v : list C) (op : C -> C) (b : bool) : (forall a d, Cmod (if b then a - Cconj d else a + Cconj d) = 0%R -> a = op d) ->
  forallb (fun p => Reqb (Cmod (if b then fst p - Cconj (snd p) else fst p + Cconj (snd p))) 0) (combine (v ++ [nth 0 v C0]) (rev (v ++ [nth 0 v C0]))) = true ->
  forall i, (i <= length v)%nat -> nth i (v ++ [nth 0 v C0]) C0 = op (nth (length v - i) (v ++ [nth 0 v C0]) C0).
Proof.
  intros Hop H i Hi. rewrite (forallb_nth _ _ (C0, C0)) in H.
  assert (L : length (v ++ [nth 0 v C0]) = S (length v)) by (rewrite app_length; cbn; lia).
  assert (E := H i ltac:(rewrite combine_length, rev_length, L; lia)). apply Reqb_true in E.
  rewrite combine_rev_nth in E by (rewrite L; lia). cbn [fst snd] in E. rewrite L in E.
  replace (S (length v) - 1 - i)%nat with (length v - i)%nat in E by lia. apply Hop. exact E.
Qed.
Lemma Usum_conj v k (op : C -> C) s : (1 <= length v)%nat ->
  (forall a, Cconj (op a) = s * a) ->
  (forall i, (i <= length v)%nat -> nth i (v ++ [nth 0 v C0]) C0 = op (nth (length v - i) (v ++ [nth 0 v C0]) C0)) ->
  Cconj (Usum v k) = s * Usum v k.
Proof.
  intros Hn Hop H. set (n := length v) in *. unfold Usum. fold n. rewrite Cconj_mult, Cconj_R, Cconj_csum.
  set (w := fun j => nth j (v ++ [nth 0 v C0]) C0) in *.
  transitivity (RtoC (/ INR n) * (s * csum n (fun j => w j * Cconj (W n j k)))).
  2:{ rewrite (csum_ext n (fun j => w j * Cconj (W n j k)) (fun j => nth j v C0 * Cconj (W n j k))); [ring|].
      intros j Hj. unfold w. rewrite app_nth1 by (fold n; exact Hj). reflexivity. }
  assert (Hw : w n = w 0%nat).
  { unfold w. rewrite !app_last_nth by (fold n; lia). fold n. rewrite Nat.eqb_refl. destruct (Nat.eqb_spec 0 n); [lia|reflexivity]. }
  f_equal. rewrite <- (csum_refl n (fun j => w j * Cconj (W n j k))); [|exact Hn|cbv beta; rewrite Hw, W_wrap by exact Hn; reflexivity].
  rewrite <- csum_scal. apply csum_ext. intros j Hj.
  assert (E : nth j v C0 = w j) by (unfold w; rewrite app_nth1 by (fold n; exact Hj); reflexivity).
  rewrite E, Cconj_mult, Cconj_conj. unfold w at 1. rewrite H by lia. rewrite Hop. fold (w (n - j)%nat).
  rewrite W_refl, Cconj_conj by lia. ring.
Qed.
Lemma real_of_conj a : Cconj a = RtoC 1 * a -> RtoC (Re a) = a.
Proof. intros H. apply (f_equal snd) in H. unfold Re. apply injective_projections; cbn in *; lra. Qed.
Lemma imag_of_conj a : Cconj a = RtoC (-1) * a -> Ci * RtoC (Im a) = a.
Proof. intros H. apply (f_equal fst) in H. unfold Im. apply injective_projections; cbn in *; lra. Qed.

Lemma vals2coeffs1_length v : length (vals2coeffs1 v) = length v.
Proof. unfold vals2coeffs1. destruct (Nat.leb_spec (length v) 1); [reflexivity|]. apply mk_length. Qed.
Lemma vals2coeffs1_Usum v k : (2 <= length v)%nat -> (k < length v)%nat -> nth k (vals2coeffs1 v) C0 = Usum v k.
Proof.
  intros Hn Hk. unfold vals2coeffs1. destruct (Nat.leb_spec (length v) 1); [lia|].
  rewrite nth_mk by exact Hk.
  set (c := map (fun a => RtoC (/ INR (length v)) * a) (fftshift (fft v))).
  assert (Lc : length c = length v) by (unfold c, fftshift, fft; rewrite map_length, !mk_length; reflexivity).
  assert (Hc : nth k c C0 = eofix (length v) k * Usum v k) by (apply raw_coeffs; lia).
  assert (Hh : nth k (if isHerm (v ++ [nth 0 v C0]) then map (fun a => RtoC (Re a)) c else c) C0 = eofix (length v) k * Usum v k /\
               length (if isHerm (v ++ [nth 0 v C0]) then map (fun a => RtoC (Re a)) c else c) = length v).
  { destruct (isHerm _) eqn:E; [|split; assumption]. split; [|rewrite map_length; exact Lc].
    rewrite map_nth_C by lia. rewrite Hc. apply real_of_conj. rewrite Cconj_mult, eofix_conj.
    rewrite (Usum_conj v k (fun a => Cconj a) (RtoC 1)); [ring|lia|intros; rewrite Cconj_conj; ring|].
    apply (herm_unpack v (fun a => Cconj a) true); [|exact E]. intros a d Hm. apply Cmod_eq_0 in Hm.
    replace a with (a - Cconj d + Cconj d) by ring. rewrite Hm. ring. }
  destruct Hh as [Hh Lh]. set (c1 := if isHerm _ then _ else _) in *.
  assert (Hs : nth k (if isSkew (v ++ [nth 0 v C0]) then map (fun a => Ci * RtoC (Im a)) c1 else c1) C0 = eofix (length v) k * Usum v k).
  { destruct (isSkew _) eqn:E; [|assumption].
    rewrite (map_nth_C (fun a => Ci * RtoC (Im a))) by lia. rewrite Hh. apply imag_of_conj. rewrite Cconj_mult, eofix_conj.
    rewrite (Usum_conj v k (fun a => - Cconj a) (RtoC (-1))); [ring|lia| |].
    - intros a. apply injective_projections; cbn; ring.
    - apply (herm_unpack v (fun a => - Cconj a) false); [|exact E]. intros a d Hm. apply Cmod_eq_0 in Hm.
      replace a with (a + Cconj d - Cconj d) by ring. rewrite Hm. ring. }
  rewrite Hs. transitivity (eofix (length v) k * eofix (length v) k * Usum v k); [ring|]. rewrite eofix_sq. ring.
Qed.

Lemma inv_n n : (1 <= n)%nat -> RtoC (/ INR n) * RtoC (INR n) = RtoC 1.
Proof. intros H. rewrite <- RtoC_mult. f_equal. apply Rinv_l. apply Rgt_not_eq, INR_pos, H. Qed.

Lemma trig_v2c_c2v v : coeffs2vals1 (vals2coeffs1 v) = v.
Proof.
  destruct (Nat.le_gt_cases (length v) 1) as [Hs|Hs].
  { unfold vals2coeffs1, coeffs2vals1. destruct (Nat.leb_spec (length v) 1); [|lia]. destruct (Nat.leb_spec (length v) 1); [|lia]. reflexivity. }
  apply nth_ext with (d := C0) (d' := C0); [rewrite coeffs2vals1_length, vals2coeffs1_length; reflexivity|].
  rewrite coeffs2vals1_length, vals2coeffs1_length. intros j Hj.
  rewrite coeffs2vals1_Vsum by (rewrite vals2coeffs1_length; lia). unfold Vsum. rewrite vals2coeffs1_length. set (n := length v) in *.
  rewrite (csum_ext n _ (fun k => csum n (fun l => RtoC (/ INR n) * nth l v C0 * (W n j k * Cconj (W n l k))))).
  2:{ intros k Hk. rewrite vals2coeffs1_Usum by (fold n; lia). unfold Usum. fold n.
      rewrite <- csum_scal, <- csum_scal_r. apply csum_ext. intros l Hl. ring. }
  rewrite csum_swap.
  rewrite (csum_ext n _ (fun l => RtoC (/ INR n) * nth l v C0 * (if Nat.eqb j l then RtoC (INR n) else RtoC 0))).
  2:{ intros l Hl. rewrite csum_scal, W_W' by lia. reflexivity. }
  rewrite (csum_single n _ j); [|lia|intros l Hl Hne; destruct (Nat.eqb_spec j l); [lia|ring]].
  rewrite Nat.eqb_refl. transitivity (RtoC (/ INR n) * RtoC (INR n) * nth j v C0); [ring|]. rewrite inv_n by lia. ring.
Qed.
Lemma trig_c2v_v2c c : vals2coeffs1 (coeffs2vals1 c) = c.
Proof.
  destruct (Nat.le_gt_cases (length c) 1) as [Hs|Hs].
  { unfold vals2coeffs1, coeffs2vals1. destruct (Nat.leb_spec (length c) 1); [|lia]. destruct (Nat.leb_spec (length c) 1); [|lia]. reflexivity. }
  apply nth_ext with (d := C0) (d' := C0); [rewrite vals2coeffs1_length, coeffs2vals1_length; reflexivity|].
  rewrite vals2coeffs1_length, coeffs2vals1_length. intros k Hk.
  rewrite vals2coeffs1_Usum by (rewrite coeffs2vals1_length; lia). unfold Usum. rewrite coeffs2vals1_length. set (n := length c) in *.
  rewrite (csum_ext n _ (fun j => csum n (fun l => nth l c C0 * (W n j l * Cconj (W n j k))))).
  2:{ intros j Hj. rewrite coeffs2vals1_Vsum by (fold n; lia). unfold Vsum. fold n.
      rewrite <- csum_scal_r. apply csum_ext. intros l Hl. ring. }
  rewrite csum_swap.
  rewrite (csum_ext n _ (fun l => nth l c C0 * (if Nat.eqb l k then RtoC (INR n) else RtoC 0))).
  2:{ intros l Hl. rewrite csum_scal, W_W by lia. reflexivity. }
  rewrite (csum_single n _ k); [|lia|intros l Hl Hne; destruct (Nat.eqb_spec l k); [lia|ring]].
  rewrite Nat.eqb_refl. transitivity (RtoC (/ INR n) * RtoC (INR n) * nth k c C0); [ring|]. rewrite inv_n by lia. ring.
Qed.

(** ** the values are those of the series at the grid points *)
Lemma mode_grid n j k : (1 <= n)%nat -> mode n k (gridpt n j) = W n j k.
Proof.
  intros Hn. unfold mode, W. destruct (andb (Nat.even n) (Nat.eqb k 0)) eqn:E; [|reflexivity].
  apply andb_prop in E. destruct E as [E1 E2]. apply Nat.eqb_eq in E2. subst k.
  apply Nat.even_spec in E1. destruct E1 as [m ->].
  assert (Hm : (1 <= m)%nat) by lia. unfold freq. rewrite (Nat.mul_comm 2 m), Nat.div_mul by lia.
  assert (A : forall z, (PI * IZR z * gridpt (m * 2) j)%R = (PI * IZR z * (-1 + INR j / INR m))%R).
  { intros z. unfold gridpt. rewrite mult_INR. cbn [INR]. field. apply Rgt_not_eq, INR_pos, Hm. }
  rewrite A. rewrite INR_IZR_INZ with (n := m), A.
  cbn [Z.of_nat]. replace (0 - Z.of_nat m)%Z with (- Z.of_nat m)%Z by lia. rewrite opp_IZR, <- INR_IZR_INZ.
  replace (PI * INR m * (-1 + INR j / INR m))%R with (PI * IZR (Z.of_nat j - Z.of_nat m))%R.
  2:{ rewrite minus_IZR, <- !INR_IZR_INZ. field. apply Rgt_not_eq, INR_pos, Hm. }
  replace (PI * - INR m * (-1 + INR j / INR m))%R with (PI * IZR (Z.of_nat m - Z.of_nat j))%R.
  2:{ rewrite minus_IZR, <- !INR_IZR_INZ. field. apply Rgt_not_eq, INR_pos, Hm. }
  assert (E1 := cis_PI_Z (Z.of_nat j - Z.of_nat m)). assert (E2 := cis_PI_Z (Z.of_nat m - Z.of_nat j)).
  assert (Ev : Z.even (Z.of_nat j - Z.of_nat m) = Z.even (Z.of_nat m - Z.of_nat j)) by (rewrite !Z.even_sub; apply Bool.eqb_prop; destruct (Z.even (Z.of_nat j)), (Z.even (Z.of_nat m)); reflexivity).
  rewrite E2, <- Ev, <- E1. unfold cis, RtoC. f_equal.
  rewrite Ev, <- E2 in E1. destruct (Z.even (Z.of_nat m - Z.of_nat j)); rewrite E2 in E1; unfold cis in E1; injection E1 as _ H; rewrite H; reflexivity.
Qed.
Lemma evalF_grid c j : (1 <= length c)%nat -> evalF c (gridpt (length c) j) = Vsum c j.
Proof. intros H. apply csum_ext. intros k Hk. rewrite mode_grid by exact H. reflexivity. Qed.

Lemma trig_values_correct c j : (j < length c)%nat -> nth j (coeffs2vals1 c) C0 = evalF c (gridpt (length c) j).
Proof.
  intros Hj. destruct (Nat.le_gt_cases (length c) 1) as [Hs|Hs].
  - unfold coeffs2vals1. destruct (Nat.leb_spec (length c) 1); [|lia].
    destruct c as [|a [|b t]]; cbn [length] in *; try lia. assert (j = 0)%nat as -> by lia.
    unfold evalF. cbn [length csum nth]. unfold mode. cbn [Nat.even andb]. unfold freq. cbn. rewrite Rmult_0_r, Rmult_0_l, cis_0. ring.
  - rewrite evalF_grid by lia. apply coeffs2vals1_Vsum; lia.
Qed.
(** two coefficient vectors of equal length with the same values on the grid are equal *)
Lemma grid_unique c d : length c = length d -> (forall j, (j < length c)%nat -> evalF c (gridpt (length c) j) = evalF d (gridpt (length c) j)) -> c = d.
Proof.
  intros Hl H. rewrite <- (trig_c2v_v2c c), <- (trig_c2v_v2c d). f_equal.
  apply nth_ext with (d := C0) (d' := C0); [rewrite !coeffs2vals1_length; exact Hl|].
  rewrite coeffs2vals1_length. intros j Hj. rewrite !trig_values_correct by lia. rewrite <- Hl. apply H. exact Hj.
Qed.
(** interpolation *)
Lemma trig_interpolates v j : (j < length v)%nat -> evalF (vals2coeffs1 v) (gridpt (length v) j) = nth j v C0.
Proof.
  intros Hj. assert (E := trig_values_correct (vals2coeffs1 v) j). rewrite vals2coeffs1_length in E. rewrite <- E by exact Hj.
  rewrite trig_v2c_c2v. reflexivity.
Qed.
