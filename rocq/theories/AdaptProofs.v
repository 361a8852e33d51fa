From Coq Require Import Reals List Arith ZArith Bool Lia Lra Sorted.
From Verif Require Import Base ToolsModel ToolsProofs ChebModel AdaptModel AdaptSpec.
Import ListNotations.
Open Scope nat_scope.

Lemma insert_uniq_in a l x : In x (insert_uniq a l) <-> x = a \/ In x l.
Proof.
  induction l as [|b l IH]; cbn [insert_uniq]; [cbn; intuition congruence|].
  destruct (Nat.ltb a b); [cbn; intuition congruence|]. destruct (Nat.eqb_spec a b) as [->|]; [cbn; intuition congruence|].
  cbn [In]. rewrite IH. intuition congruence.
Qed.
Lemma insert_uniq_sorted a l : StronglySorted lt l -> StronglySorted lt (insert_uniq a l).
Proof.
  induction 1 as [|b l HS IH HF]; cbn [insert_uniq]; [repeat constructor|].
  destruct (Nat.ltb_spec a b).
  - constructor; [constructor; assumption|]. constructor; [assumption|]. rewrite Forall_forall in *. intros x Hx. specialize (HF x Hx). lia.
  - destruct (Nat.eqb_spec a b) as [->|]; [constructor; assumption|]. constructor; [assumption|].
    rewrite Forall_forall in *. intros x Hx. apply insert_uniq_in in Hx. destruct Hx as [->|Hx]; [lia|apply HF; exact Hx].
Qed.
Lemma np_unique_in l x : In x (np_unique l) <-> In x l.
Proof. induction l as [|a l IH]; [reflexivity|]. cbn [np_unique fold_right]. rewrite insert_uniq_in. fold (np_unique l). rewrite IH. cbn. intuition congruence. Qed.
Lemma np_unique_sorted l : StronglySorted lt (np_unique l).
Proof. induction l as [|a l IH]; [constructor|]. apply insert_uniq_sorted. exact IH. Qed.

Lemma n_disc_in n_min n_max lower upper n : In n (n_disc n_min n_max lower upper false) <->
  exists k, Nat.min 7 n_min <= k <= n_max /\ n = Nat.max lower (Nat.min upper (1 + 2 ^ k)).
Proof.
  unfold n_disc. rewrite np_unique_in, in_map_iff. unfold arange. split.
  - intros (k & E & Hk). apply in_seq in Hk. exists k. split; [lia|]. symmetry. exact E.
  - intros (k & Hk & E). exists k. split; [symmetry; exact E|]. apply in_seq. lia.
Qed.
Lemma n_disc_sorted n_min n_max lower upper c : StronglySorted lt (n_disc n_min n_max lower upper c).
Proof. unfold n_disc. destruct c; [repeat constructor|apply np_unique_sorted]. Qed.
Lemma n_disc_nil n_min n_max lower upper c : n_disc n_min n_max lower upper c = [] <-> c = false /\ n_max < Nat.min 7 n_min.
Proof.
  destruct c; [split; [discriminate|intros [E _]; discriminate]|]. split.
  - intros E. split; [reflexivity|]. destruct (Nat.lt_ge_cases n_max (Nat.min 7 n_min)) as [H|H]; [exact H|exfalso].
    assert (X : In (Nat.max lower (Nat.min upper (1 + 2 ^ n_max))) (n_disc n_min n_max lower upper false)) by (apply n_disc_in; exists n_max; lia).
    rewrite E in X. exact X.
  - intros [_ H]. unfold n_disc, arange. replace (1 + n_max - Nat.min 7 n_min) with 0 by lia. reflexivity.
Qed.
Lemma upper_bd_ge lower up : lower <= upper_bd lower up.
Proof.
  unfold upper_bd. destruct (Nat.le_gt_cases lower 1) as [H|H].
  - rewrite next_pow2_small by lia. change (Z.to_nat 2) with 2. assert (X := Nat.pow_nonzero 2 (Nat.log2 2 + (up - 1))). lia.
  - destruct (next_pow2_correct (Z.of_nat lower) ltac:(lia)) as (p & E & Hp & (k & Hk & Ek) & _). rewrite E. subst p.
    assert (Y : Z.to_nat (2 ^ k) = 2 ^ Z.to_nat k). { rewrite <- (Z2Nat.id k) at 1 by lia. rewrite <- Nat2Z.inj_pow with (n := 2). apply Nat2Z.id. }
    rewrite Y, Nat.log2_pow2 by lia. rewrite Nat.pow_add_r. assert (X := Nat.pow_nonzero 2 (up - 1)). assert (lower <= 2 ^ Z.to_nat k) by lia. nia.
Qed.

Section loop.
  Context {S : Type} (prolong : nat -> S -> S) (dist : S -> S -> R) (newton : nat -> nat -> S -> S * S * bool).
  Notation call := (nat * S * S * S * bool)%type.
  Notation loop := (adapt_loop prolong dist newton).
  Lemma loop_none eps mf ns : forall k st anys last tr, loop eps mf k ns st anys last tr = None <-> ns = [] /\ last = None.
  Proof.
    induction ns as [|n ns IH]; intros k st anys last tr; cbn [adapt_loop].
    - destruct last; split; try discriminate; try (intros [_ E]; discriminate); auto.
    - split; [|intros [E _]; discriminate]. destruct (newton k n (prolong n st)) as [[g' x] ok]. destruct ok.
      + destruct (_ && _); [discriminate|]. intros E. apply IH in E. destruct E as [_ E]; discriminate.
      + destruct (_ && _); [discriminate|]. intros E. apply IH in E. destruct E as [_ E]; discriminate.
  Qed.
  Lemma loop_run eps mf ns : forall k st anys last tr0 r b tr, loop eps mf k ns st anys last tr0 = Some (r, b, tr) ->
    exists t rest, tr = tr0 ++ t /\ ns = map c_size t ++ rest /\ run_from prolong newton k st t /\
      (t = [] -> ns = [] /\ last = Some b /\ r = st) /\
      (forall d, t <> [] -> let c := List.last t d in b = c_ok c /\ (rest = [] \/ b = true \/ r = c_guess_after c) /\
         (r = c_best c \/ (c_small dist eps c /\ 1 <= k + (length t - 1) /\ r = c_guess_after c))) /\
      (rest <> [] -> (b = true /\ 2 <= k + length t /\ forall d, c_small dist eps (List.last t d)) \/
                     (b = false /\ anys = false /\ mf <= k + length t /\ t <> [] /\ forall c, In c t -> c_ok c = false)) /\
      (forall i d, i < length t - 1 -> ~ (1 <= k + i /\ c_small dist eps (nth i t d)) /\
         ~ (anys = false /\ mf <= k + i + 1 /\ forall j, j <= i -> c_ok (nth j t d) = false)).
  Proof.
    induction ns as [|n ns IH]; intros k st anys last tr0 r b tr E; cbn [adapt_loop] in E.
    - destruct last as [b'|]; [|discriminate]. assert (st = r /\ b' = b /\ tr0 = tr) as (-> & -> & ->) by (repeat split; congruence).
      exists [], []. rewrite app_nil_r. split; [reflexivity|]. split; [reflexivity|]. split; [exact I|]. split; [intros _; auto|].
      split; [intros d H; exfalso; apply H; reflexivity|]. split; [intros H; exfalso; apply H; reflexivity|]. intros i d H. cbn in H. lia.
    - destruct (newton k n (prolong n st)) as [[g' x] ok] eqn:En. set (c0 := (n, prolong n st, g', x, ok)) in *.
      (* the two possibilities: stop or go on *)
      assert (Stop : forall b0, Some (g', b0, tr0 ++ [c0]) = Some (r, b, tr) -> ok = b0 ->
                (b0 = true -> (dist g' x < eps)%R /\ 1 <= k) -> (b0 = false -> anys = false /\ mf <= k + 1) ->
        exists t rest, tr = tr0 ++ t /\ n :: ns = map c_size t ++ rest /\ run_from prolong newton k st t /\
      (t = [] -> n :: ns = [] /\ last = Some b /\ r = st) /\
      (forall d, t <> [] -> let c := List.last t d in b = c_ok c /\ (rest = [] \/ b = true \/ r = c_guess_after c) /\
         (r = c_best c \/ (c_small dist eps c /\ 1 <= k + (length t - 1) /\ r = c_guess_after c))) /\
      (rest <> [] -> (b = true /\ 2 <= k + length t /\ forall d, c_small dist eps (List.last t d)) \/
                     (b = false /\ anys = false /\ mf <= k + length t /\ t <> [] /\ forall c, In c t -> c_ok c = false)) /\
      (forall i d, i < length t - 1 -> ~ (1 <= k + i /\ c_small dist eps (nth i t d)) /\
         ~ (anys = false /\ mf <= k + i + 1 /\ forall j, j <= i -> c_ok (nth j t d) = false))).
      { intros b0 E0 Eo Ht Hf. assert (g' = r /\ b0 = b /\ tr0 ++ [c0] = tr) as (<- & <- & <-) by (repeat split; congruence).
        exists [c0], ns. split; [reflexivity|]. split; [reflexivity|]. split; [cbn [run_from]; unfold c0; repeat split; exact En|]. split; [discriminate|]. split; [|split].
        - intros d _. cbn [List.last length]. subst ok. unfold c0, c_ok, c_best, c_small, c_guess_after. split; [reflexivity|]. split; [right; right; reflexivity|].
          destruct b0; [right|left; reflexivity]. destruct (Ht eq_refl). repeat split; auto. lia.
        - intros _. subst ok. destruct b0; [left|right]; cbn [length List.last].
          + destruct (Ht eq_refl). split; [reflexivity|]. split; [lia|]. intros _. unfold c0, c_small. auto.
          + destruct (Hf eq_refl). split; [reflexivity|]. split; [assumption|]. split; [lia|]. split; [discriminate|]. intros c [<-|[]]. reflexivity.
        - intros i d Hi. cbn in Hi. lia. }
      assert (Go : forall anys', loop eps mf (k + 1) ns (if ok then x else g') anys' (Some ok) (tr0 ++ [c0]) = Some (r, b, tr) ->
                anys' = (if ok then true else anys) -> ~ (1 <= k /\ c_small dist eps c0) -> ~ (anys = false /\ mf <= k + 1 /\ ok = false) ->
        exists t rest, tr = tr0 ++ t /\ n :: ns = map c_size t ++ rest /\ run_from prolong newton k st t /\
      (t = [] -> n :: ns = [] /\ last = Some b /\ r = st) /\
      (forall d, t <> [] -> let c := List.last t d in b = c_ok c /\ (rest = [] \/ b = true \/ r = c_guess_after c) /\
         (r = c_best c \/ (c_small dist eps c /\ 1 <= k + (length t - 1) /\ r = c_guess_after c))) /\
      (rest <> [] -> (b = true /\ 2 <= k + length t /\ forall d, c_small dist eps (List.last t d)) \/
                     (b = false /\ anys = false /\ mf <= k + length t /\ t <> [] /\ forall c, In c t -> c_ok c = false)) /\
      (forall i d, i < length t - 1 -> ~ (1 <= k + i /\ c_small dist eps (nth i t d)) /\
         ~ (anys = false /\ mf <= k + i + 1 /\ forall j, j <= i -> c_ok (nth j t d) = false))).
      { intros anys' E0 Ea N1 N2. destruct (IH _ _ _ _ _ _ _ _ E0) as (t & rest & H1 & H2 & H3 & H4 & H5 & H6 & H7).
        exists (c0 :: t), rest. split; [rewrite H1, <- app_assoc; reflexivity|]. split; [cbn [map app]; rewrite <- H2; reflexivity|].
        split; [cbn [run_from]; unfold c0; repeat split; [exact En|exact H3]|]. split; [discriminate|]. split; [|split].
        - intros d _. destruct t as [|c1 t].
          + cbn [List.last length]. destruct (H4 eq_refl) as (Hn & Hb & Hr). injection Hb as Hb. unfold c0, c_ok, c_best. split; [symmetry; exact Hb|]. split; [|left; exact Hr].
            left. rewrite Hn in H2. cbn [map app] in H2. symmetry. exact H2.
          + change (List.last (c0 :: c1 :: t) d) with (List.last (c1 :: t) d). destruct (H5 d ltac:(discriminate)) as (A & B & C). split; [exact A|]. split; [exact B|].
            destruct C as [C|(C1 & C2 & C3)]; [left; exact C|right]. cbn [length] in *. repeat split; auto. lia.
        - intros Hr. destruct (H6 Hr) as [(A & B & C)|(A & B & C & D & F)].
          + left. split; [exact A|]. cbn [length]. split; [lia|]. intros d. destruct t as [|c1 t]; [|exact (C d)].
            destruct (H4 eq_refl) as (Hn & _). rewrite Hn in H2. cbn in H2. subst rest. exfalso. apply Hr. reflexivity.
          + right. split; [exact A|]. subst anys'. destruct ok; [discriminate|]. cbn [length]. split; [exact B|]. split; [lia|]. split; [discriminate|].
            intros c [<-|Hc]; [reflexivity|apply F; exact Hc].
        - intros i d Hi. cbn [length] in Hi. destruct i as [|i].
          + cbn [nth]. rewrite Nat.add_0_r. split; [exact N1|]. intros (A & B & C). apply N2. split; [exact A|]. split; [exact B|]. exact (C 0 (Nat.le_refl 0)).
          + destruct (H7 i d ltac:(lia)) as (A & B). cbn [nth]. split; [intros (X & Y); apply A; split; [lia|exact Y]|].
            intros (X & Y & Z). assert (Zo : ok = false) by exact (Z 0 ltac:(lia)). subst anys'. rewrite Zo in B. apply B. split; [exact X|]. split; [lia|].
            intros j Hj. exact (Z (Datatypes.S j) ltac:(lia)). }
      destruct ok.
      + destruct (Rltb (dist g' x) eps) eqn:R1; [destruct (Nat.ltb_spec 0 k) as [K1|K1]|]; cbn [andb] in E.
        * apply (Stop true E eq_refl); [|discriminate]. intros _. split; [|lia]. unfold Rltb in R1. destruct (Rlt_dec _ _); [assumption|discriminate].
        * apply (Go true E eq_refl); [intros [? _]; lia|intros (_ & _ & F); discriminate].
        * apply (Go true E eq_refl); [|intros (_ & _ & F); discriminate]. intros (_ & _ & F). unfold Rltb in R1. destruct (Rlt_dec _ _); [discriminate|contradiction].
      + destruct (Nat.leb_spec mf (k + 1)) as [K1|K1]; [destruct anys|]; cbn [andb negb] in E.
        * apply (Go true E eq_refl); [intros (_ & F & _); discriminate|intros (F & _); discriminate].
        * apply (Stop false E eq_refl); [discriminate|]. intros _. split; [reflexivity|lia].
        * apply (Go anys E eq_refl); [intros (_ & F & _); discriminate|intros (_ & F & _); lia].
  Qed.
End loop.
