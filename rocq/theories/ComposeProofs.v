(** Proofs about chebtech.compose (ComposeModel.v). *)
From Coq Require Import Reals ZArith List Arith Bool Lra Lia.
From Verif Require Import Base ToolsProofs ChebSpec ChebModel ChebModel2 ChebMath ChebEval ChebDct ChebObj ChebConstr ComposeModel TcolMat.
Import ListNotations.
Open Scope R_scope.

(** the functions that are sampled: op of the first nine coefficients *)
Definition nine (c : list R) : list R := prolong1 c 9.
Definition csampled (u : list R -> R) (Fs : list arr) : list (R -> R) :=
  mk (length (hd [] Fs)) (fun j x => u (map (fun F => evalT (nine (nth j F [])) x) Fs)).
Definition grown (Fs : list arr) (n : nat) : list arr := map (fun F => prolong (prolong F 9) (Z.of_nat n)) Fs.

Lemma nine_length c : length (nine c) = 9%nat.
Proof. unfold nine. rewrite prolong1_length. reflexivity. Qed.
Lemma polyval_nine F j n i : (9 <= n)%nat -> (i < n)%nat -> (j < length F)%nat ->
  nth i (nth j (polyval (prolong (prolong F 9) (Z.of_nat n))) []) 0 = evalT (nine (nth j F [])) (nth i (chebpts_type2_compute n) 0).
Proof.
  intros N9 Hi Hj. unfold polyval, prolong. rewrite !map_map.
  rewrite (map_nth' _ F j [] []) by exact Hj. fold (nine (nth j F [])).
  assert (L : length (prolong1 (nine (nth j F [])) (Z.of_nat n)) = n) by (rewrite prolong1_length; apply Nat2Z.id).
  rewrite polyval1_spec by lia. rewrite L. apply prolong1_eval. rewrite nine_length. lia.
Qed.
Lemma hd_grown Fs n : length (hd [] (grown Fs n)) = length (hd [] Fs).
Proof. destruct Fs; [reflexivity|]. cbn. unfold prolong. now rewrite !map_length. Qed.
Lemma grown_prolong Fs n n' : (9 <= n)%nat -> map (fun F => prolong F (Z.of_nat n')) (grown Fs n) = grown Fs n'.
Proof.
  intros H. unfold grown. rewrite map_map. apply map_ext. intros F. unfold prolong. rewrite !map_map. apply map_ext. intros c.
  apply prolong_ge_eq. rewrite prolong1_length. exact H.
Qed.
Lemma argvals_grown Fs n j i : (9 <= n)%nat -> (i < n)%nat -> (forall F, In F Fs -> (j < length F)%nat) ->
  argvals (grown Fs n) j i = map (fun F => evalT (nine (nth j F [])) (nth i (chebpts_type2_compute n) 0)) Fs.
Proof.
  intros N Hi A. unfold argvals, grown. rewrite map_map. apply map_ext_in. intros F I. apply polyval_nine; auto.
Qed.
Definition equal_cols (Fs : list arr) : Prop := forall F, In F Fs -> length F = length (hd [] Fs).
Lemma sampled_nth u Fs n j i : equal_cols Fs -> (j < length (hd [] Fs))%nat -> (i < n)%nat -> (9 <= n)%nat ->
  nth i (nth j (sample (csampled u Fs) n) []) 0 = u (argvals (grown Fs n) j i).
Proof.
  intros E Hj Hi N. unfold sample, csampled. rewrite (map_nth' _ _ j [] (fun _ => 0)) by (rewrite mk_length; exact Hj).
  rewrite nth_mk by exact Hj. rewrite (map_nth' _ _ i 0 0) by (rewrite chebpts_length; exact Hi).
  rewrite argvals_grown; try assumption; [reflexivity|]. intros F I. rewrite (E F I). exact Hj.
Qed.
Lemma sampled_mk u Fs n : equal_cols Fs -> (9 <= n)%nat ->
  mk (length (hd [] Fs)) (fun j => mk n (fun i => u (argvals (grown Fs n) j i))) = sample (csampled u Fs) n.
Proof.
  intros E N. apply (list_ext _ _ []).
  - unfold sample, csampled. now rewrite map_length, !mk_length.
  - rewrite mk_length. intros j Hj. rewrite nth_mk by exact Hj. apply (list_ext _ _ 0).
    + rewrite mk_length. unfold sample, csampled. rewrite (map_nth' _ _ j [] (fun _ => 0)) by (rewrite mk_length; exact Hj).
      now rewrite map_length, chebpts_length.
    + rewrite mk_length. intros i Hi. rewrite nth_mk by exact Hi. symmetry. now apply sampled_nth.
Qed.
Lemma cresample_spec u Fs : equal_cols Fs -> cresample u Fs 9 = (sample (csampled u Fs) 9, grown Fs 9).
Proof.
  intros E. unfold cresample.
  assert (G : map (fun F => prolong F (Z.of_nat 9)) Fs = grown Fs 9).
  { unfold grown. apply map_ext. intros F. unfold prolong. rewrite map_map. apply map_ext. intros c.
    change 9%Z with (Z.of_nat 9). symmetry. apply prolong_prolong. lia. }
  rewrite G. f_equal. apply sampled_mk; [exact E|lia].
Qed.
Lemma equal_grown Fs n : equal_cols Fs -> equal_cols (grown Fs n).
Proof.
  intros E F I. rewrite hd_grown. unfold grown in I. apply in_map_iff in I. destruct I as [G [<- I]]. unfold prolong. rewrite !map_length. now apply E.
Qed.
Lemma nrows_sample ops n : ops <> [] -> nrows (sample ops n) = n.
Proof. intros H. destruct ops; [congruence|]. cbn. now rewrite map_length, chebpts_length. Qed.
Lemma cnested_spec u Fs n : equal_cols Fs -> hd [] Fs <> [] -> (9 <= n)%nat ->
  cnested u (grown Fs n) (sample (csampled u Fs) n) = (sample (csampled u Fs) (2 * n - 1), grown Fs (2 * n - 1)).
Proof.
  intros E NE N. unfold cnested. rewrite nrows_sample.
  2:{ unfold csampled. intros Z. apply (f_equal (@length _)) in Z. rewrite mk_length in Z. destruct (hd [] Fs); [congruence|discriminate]. }
  cbv zeta. rewrite grown_prolong by exact N. rewrite hd_grown. f_equal.
  rewrite <- (sampled_mk u Fs (2 * n - 1)) by (try exact E; lia). apply mk_ext. intros j Hj. apply mk_ext. intros i Hi.
  destruct (Nat.even i) eqn:EV; [|reflexivity].
  apply Nat.even_spec in EV. destruct EV as [k ->]. replace (2 * k / 2)%nat with k by (rewrite Nat.mul_comm, Nat.div_mul; lia).
  rewrite <- sampled_nth by (try assumption; lia).
  unfold sample. rewrite !(map_nth' _ _ j [] (fun _ => 0)) by (unfold csampled; rewrite mk_length; exact Hj).
  rewrite (map_nth' _ _ k 0 0) by (rewrite chebpts_length; lia). rewrite (map_nth' _ _ (2 * k) 0 0) by (rewrite chebpts_length; exact Hi).
  rewrite chebpts_nested by lia. reflexivity.
Qed.
Lemma cpopulate_spec fuel : forall u Fs n e h ml, equal_cols Fs -> hd [] Fs <> [] -> (9 <= n)%nat ->
  match populate fuel (csampled u Fs) (sample (csampled u Fs) n) e h ml with
  | None => cpopulate fuel u (grown Fs n) (sample (csampled u Fs) n) e h ml = None
  | Some (c, hp) => exists N, (n <= N)%nat /\ cpopulate fuel u (grown Fs n) (sample (csampled u Fs) n) e h ml = Some (c, hp, grown Fs N)
  end.
Proof.
  induction fuel; intros u Fs n e h ml E NE N; cbn [populate cpopulate].
  - destruct (happy _ e h) as [[[|] cut]|]; [eauto| |reflexivity].
    destruct (Z.ltb _ _); [eauto|reflexivity].
  - destruct (happy _ e h) as [[[|] cut]|]; [eauto| |reflexivity].
    destruct (Z.ltb _ _); [eauto|].
    rewrite cnested_spec by assumption. rewrite nested_values_correct by lia.
    specialize (IHfuel u Fs (2 * n - 1)%nat e h ml E NE ltac:(lia)).
    destruct (populate fuel _ _ e h ml) as [[c hp]|]; [|exact IHfuel].
    destruct IHfuel as [M [L X]]. exists M. split; [lia|exact X].
Qed.
(** compose is the adaptive construction of op of the truncated arguments. *)
Lemma compose_spec u Fs : equal_cols Fs -> hd [] Fs <> [] ->
  match construct (csampled u Fs) eps_default 1 maxLength_default 9 with
  | None => cheb_compose u Fs = None
  | Some r => exists N, (9 <= N)%nat /\ cheb_compose u Fs = Some (r, grown Fs N)
  end.
Proof.
  intros E NE. unfold construct, cheb_compose. destruct (csampled u Fs) as [|o ops] eqn:CS.
  { exfalso. apply (f_equal (@length _)) in CS. unfold csampled in CS. rewrite mk_length in CS. destruct (hd [] Fs); [congruence|discriminate]. }
  rewrite <- CS. change (initial_n maxLength_default 9) with 9%Z. change (maxLength_default <? 9)%Z with false.
  change (Z.to_nat 9) with 9%nat. rewrite cresample_spec by exact E.
  generalize (Z.to_nat maxLength_default). intros fuel.
  assert (P := cpopulate_spec fuel u Fs 9 eps_default 1 maxLength_default E NE (le_n 9)).
  destruct (populate fuel _ _ _ _ _) as [[c hp]|].
  - destruct P as [N [L X]]. rewrite X. destruct (cheb_init _ _ _ _ _ _) as [r|]; [|reflexivity]. exists N. split; [exact L|reflexivity].
  - rewrite P. reflexivity.
Qed.
