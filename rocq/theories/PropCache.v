(** C172: the grid a function is sampled on. *)
From Coq Require Import Reals List Arith Lia Lra Bool.
From Verif Require Import Base ChebSpec ChebModel FunModel TcolMat CacheModel.
Import ListNotations.
Open Scope R_scope.

(** ** Specification: the Chebyshev points, on [a, b], every second of them. *)
Definition grid (n j : nat) : R := sin (PI * (2 * INR j - INR (n - 1)) / (2 * INR (n - 1))).
Definition grid_on (a b : R) (n j : nat) : R := (b * (grid n j + 1) + a * (1 - grid n j)) / 2.
Definition all_of (n : nat) (f : nat -> R) : list R := map f (seq 0 n).
Definition new_of (n : nat) (f : nat -> R) : list R := map (fun i => f (2 * i + 1)%nat) (seq 0 ((n - 1) / 2)).
(** What must be seen of an event, whatever happened before. *)
Definition expected (e : event) : seen :=
  match e with
  | TechX n | SampleTech n _ => Points (all_of n (grid n))
  | NestTech n _ => Points (new_of n (grid n))
  | FunX a b n | SampleFun a b n _ => Points (all_of n (grid_on a b n))
  | NestFun a b n _ => Points (new_of n (grid_on a b n))
  | Write _ _ => Nothing
  end.
Definition size_of (e : event) : nat := match e with TechX n | SampleTech n _ | NestTech n _ | FunX _ _ n | SampleFun _ _ n _ | NestFun _ _ n _ => n | Write _ _ => 2 end.
Definition writes_to (h : list event) (e : event) : Prop :=
  match e with
  | SampleTech _ g | NestTech _ g => exists l, g l <> l
  | Write k _ => exists n, nth_error h k = Some (TechX n)
  | _ => False
  end.

Lemma cheb_grid n : (2 <= n)%nat -> chebpts_type2_compute n = all_of n (grid n).
Proof. intros H. destruct n as [|[|n]]; [lia|lia|]. reflexivity. Qed.
Lemma all_length n f : length (all_of n f) = n.
Proof. unfold all_of. now rewrite map_length, seq_length. Qed.
Lemma all_nth n f j : (j < n)%nat -> nth j (all_of n f) 0 = f j.
Proof. intros H. unfold all_of. rewrite (nth_indep _ 0 (f 0%nat)) by (now rewrite map_length, seq_length). rewrite map_nth, seq_nth by exact H. reflexivity. Qed.
Lemma odds_all n f : odds (all_of n f) = new_of n f.
Proof.
  unfold odds, new_of. rewrite all_length. apply map_ext_in. intros i Hi. apply in_seq in Hi. apply all_nth.
  pose proof (Nat.div_mod (n - 1) 2 ltac:(lia)). lia.
Qed.
Lemma put_odds_id l : put_odds l (odds l) = l.
Proof.
  apply (nth_ext _ _ 0 0); [unfold put_odds; now rewrite mk_length|]. unfold put_odds. rewrite mk_length. intros i Hi. rewrite nth_mk by exact Hi.
  destruct (Nat.odd i) eqn:O; [|reflexivity]. destruct (Nat.ltb_spec i (length l - 1)) as [L|L]; [|reflexivity]. cbn [andb].
  apply Nat.odd_spec in O. destruct O as [m ->]. replace ((2 * m + 1) / 2)%nat with m by (rewrite Nat.add_comm, (Nat.mul_comm 2), Nat.div_add by lia; reflexivity).
  assert (M : (m < (length l - 1) / 2)%nat).
  { pose proof (Nat.div_mod (length l - 1) 2 ltac:(lia)). pose proof (Nat.mod_upper_bound (length l - 1) 2 ltac:(lia)). lia. }
  unfold odds. rewrite (nth_indep _ 0 ((fun i => nth (2 * i + 1) l 0) 0%nat)) by (now rewrite map_length, seq_length). rewrite (map_nth (fun i => nth (2 * i + 1) l 0)), seq_nth by exact M. reflexivity.
Qed.

(** ** Invariant: every cached array is the right grid and not one of the user's. *)
Definition inv (done : list event) (w : world) : Prop :=
  (forall n p, In (n, p) (lru w) -> mem w p = chebpts_type2_compute n /\ (p < next w)%nat) /\
  length (res w) = length done /\
  (forall k p, nth k (res w) None = Some p -> (p < next w)%nat /\
    ((exists n, nth_error done k = Some (TechX n)) \/ forall n, ~ In (n, p) (lru w))).

Lemma points_inv done w n w' p : inv done w -> points w n = (w', p) ->
  inv done w' /\ In (n, p) (lru w') /\ mem w' p = chebpts_type2_compute n.
Proof.
  intros (I1 & I2 & I3) H. unfold points in H. destruct (find _ (lru w)) as [[m q]|] eqn:F.
  - apply find_some in F. destruct F as [F E]. cbn [fst] in E. apply Nat.eqb_eq in E. subst m. injection H as <- <-.
    destruct (I1 n q F) as [M L]. assert (Sub : forall m r, In (m, r) ((n, q) :: filter (fun e => negb (Nat.eqb (fst e) n)) (lru w)) -> In (m, r) (lru w)).
    { intros m r [X|X]; [injection X as <- <-; exact F|]. apply filter_In in X. apply X. }
    split; [|split; [left; reflexivity|exact M]]. split; [|split; [exact I2|]]; cbn [mem next lru res].
    + intros m r X. apply I1. apply Sub, X.
    + intros k r X. destruct (I3 k r X) as [A [B|B]]; split; auto. right. intros m Y. apply (B m). apply Sub, Y.
  - injection H as <- <-. cbn [mem next lru res].
    assert (Fr : forall m r, In (m, r) (firstn 25 ((n, next w) :: lru w)) -> (m, r) = (n, next w) \/ In (m, r) (lru w)).
    { intros m r X. assert (Y : In (m, r) ((n, next w) :: lru w)) by (rewrite <- (firstn_skipn 25 ((n, next w) :: lru w)); apply in_or_app; left; exact X). destruct Y as [Y|Y]; [left; symmetry; exact Y|right; exact Y]. }
    assert (Me : store (mem w) (next w) (chebpts_type2_compute n) (next w) = chebpts_type2_compute n) by (unfold store; now rewrite Nat.eqb_refl).
    split; [|split; [left; reflexivity|exact Me]]. split; [|split; [exact I2|]]; cbn [mem next lru res].
    + intros m r X. destruct (Fr m r X) as [Y|Y]; [injection Y as -> ->; split; [exact Me|lia]|]. destruct (I1 m r Y) as [A B]. split; [|lia].
      unfold store. destruct (Nat.eqb_spec r (next w)); [lia|exact A].
    + intros k r X. destruct (I3 k r X) as [A [B|B]]; (split; [lia|]); [now left|]. right. intros m Y. destruct (Fr m r Y) as [Z|Z]; [injection Z as -> ->; lia|exact (B m Z)].
Qed.
Lemma fresh_inv done w l w' q : inv done w -> fresh w l = (w', q) -> inv done w' /\ mem w' q = l /\ (forall n, ~ In (n, q) (lru w')) /\ (q < next w')%nat.
Proof.
  intros (I1 & I2 & I3) H. injection H as <- <-. cbn [mem next lru res].
  assert (NI : forall n, ~ In (n, next w) (lru w)) by (intros n X; destruct (I1 _ _ X); lia).
  split; [|split; [unfold store; now rewrite Nat.eqb_refl|split; [exact NI|lia]]].
  split; [|split; [exact I2|]]; cbn [mem next lru res].
  - intros m r X. destruct (I1 m r X) as [A B]. split; [|lia]. unfold store. destruct (Nat.eqb_spec r (next w)); [lia|exact A].
  - intros k r X. destruct (I3 k r X) as [A B]. split; [lia|exact B].
Qed.
Lemma write_inv done w p g : inv done w -> (forall n, ~ In (n, p) (lru w)) \/ g (mem w p) = mem w p -> inv done (write w p g).
Proof.
  intros (I1 & I2 & I3) H. split; [|split; [exact I2|exact I3]]. cbn [write mem next lru res]. intros m r X. destruct (I1 m r X) as [A B]. split; [|exact B].
  unfold store. destruct (Nat.eqb_spec r p) as [->|N]; [|exact A]. destruct H as [H|H]; [destruct (H m X)|now rewrite H].
Qed.
Lemma ret_inv done e w r : inv done w -> (forall p, r = Some p -> (p < next w)%nat /\ ((exists n, e = TechX n) \/ forall n, ~ In (n, p) (lru w))) -> inv (done ++ [e]) (ret w r).
Proof.
  intros (I1 & I2 & I3) H. split; [exact I1|]. cbn [ret mem next lru res]. split; [rewrite !app_length, I2; reflexivity|].
  intros k p X. destruct (Nat.lt_ge_cases k (length (res w))) as [L|L].
  - rewrite app_nth1 in X by exact L. destruct (I3 k p X) as [A [B|B]]; (split; [exact A|]); [left|now right]. destruct B as [n B]. exists n. rewrite nth_error_app1 by (rewrite <- I2; exact L). exact B.
  - rewrite app_nth2 in X by exact L. destruct (k - length (res w))%nat as [|d] eqn:E; [|destruct d; discriminate]. cbn in X.
    destruct (H p X) as [A [B|B]]; (split; [exact A|]); [left|now right]. destruct B as [n ->]. exists n. rewrite nth_error_app2 by (rewrite <- I2; exact L). rewrite <- I2, E. reflexivity.
Qed.
Lemma map_all n a b : map (map_fwd a b) (all_of n (grid n)) = all_of n (grid_on a b n).
Proof. unfold all_of. rewrite map_map. reflexivity. Qed.
Lemma map_new n a b : map (map_fwd a b) (new_of n (grid n)) = new_of n (grid_on a b n).
Proof. unfold new_of. rewrite map_map. reflexivity. Qed.

Lemma not_all {A} (g : A -> A) : ~ (exists l, g l <> l) -> (forall a b : A, a = b \/ a <> b) -> forall l, g l = l.
Proof. intros N D l. destruct (D (g l) l) as [E|E]; [exact E|]. destruct N. exists l. exact E. Qed.
Lemma list_dec (a b : list R) : a = b \/ a <> b.
Proof. destruct (list_eq_dec Req_EM_T a b); auto. Qed.

Lemma step_ok done w e : inv done w -> (2 <= size_of e)%nat -> ~ writes_to done e ->
  exists w', step w e = (w', expected e) /\ inv (done ++ [e]) w'.
Proof.
  intros I Hn Hw. assert (NL : forall n : nat, (2 <= n)%nat -> (n <=? 1)%nat = false) by (intros n H; apply Nat.leb_gt; lia).
  destruct e as [n|a b n|k g|n g|n g|a b n g|a b n g]; cbn [step expected size_of writes_to] in *.
  - destruct (points w n) as [w1 p] eqn:P. destruct (points_inv _ _ _ _ _ I P) as (J & L & M). eexists. split; [rewrite M, cheb_grid by exact Hn; reflexivity|].
    apply ret_inv; [exact J|]. intros q Hq. injection Hq as <-. split; [apply (proj1 J n p L)|]. left. now exists n.
  - destruct (points w n) as [w1 p] eqn:P. destruct (points_inv _ _ _ _ _ I P) as (J & L & M). rewrite (NL n Hn).
    destruct (fresh w1 _) as [w2 q] eqn:F. destruct (fresh_inv _ _ _ _ _ J F) as (K & Q & NI & Lt). eexists. split; [rewrite Q, M, cheb_grid, map_all by exact Hn; reflexivity|].
    apply ret_inv; [exact K|]. intros r Hr. injection Hr as <-. split; [exact Lt|now right].
  - destruct (nth k (res w) None) as [p|] eqn:N.
    + eexists. split; [reflexivity|]. apply ret_inv; [|discriminate]. apply write_inv; [exact I|]. left. destruct I as (_ & _ & I3). destruct (I3 k p N) as [_ [B|B]]; [destruct (Hw B)|exact B].
    + eexists. split; [reflexivity|]. apply ret_inv; [exact I|discriminate].
  - destruct (points w n) as [w1 p] eqn:P. destruct (points_inv _ _ _ _ _ I P) as (J & L & M). eexists. split; [rewrite M, cheb_grid by exact Hn; reflexivity|].
    apply ret_inv; [|discriminate]. apply write_inv; [exact J|]. right. apply (not_all g Hw list_dec).
  - destruct (points w n) as [w1 p] eqn:P. destruct (points_inv _ _ _ _ _ I P) as (J & L & M). eexists. split; [rewrite M, cheb_grid, odds_all by exact Hn; reflexivity|].
    apply ret_inv; [|discriminate]. apply write_inv; [exact J|]. right. rewrite (not_all g Hw list_dec). apply put_odds_id.
  - destruct (points w n) as [w1 p] eqn:P. destruct (points_inv _ _ _ _ _ I P) as (J & L & M). rewrite (NL n Hn).
    destruct (fresh w1 _) as [w2 q] eqn:F. destruct (fresh_inv _ _ _ _ _ J F) as (K & Q & NI & Lt). eexists. split; [rewrite Q, M, cheb_grid, map_all by exact Hn; reflexivity|].
    apply ret_inv; [|discriminate]. apply write_inv; [exact K|now left].
  - destruct (points w n) as [w1 p] eqn:P. destruct (points_inv _ _ _ _ _ I P) as (J & L & M). rewrite (NL n Hn).
    destruct (fresh w1 _) as [w2 q] eqn:F. destruct (fresh_inv _ _ _ _ _ J F) as (K & Q & NI & Lt). eexists. split; [rewrite Q, M, cheb_grid, odds_all, map_new by exact Hn; reflexivity|].
    apply ret_inv; [|discriminate]. apply write_inv; [exact K|now left].
Qed.
Lemma run_ok h : forall done w, inv done w -> (forall e, In e h -> (2 <= size_of e)%nat) -> (forall i e, nth_error h i = Some e -> ~ writes_to (done ++ firstn i h) e) ->
  run w h = map expected h.
Proof.
  induction h as [|e h IH]; intros done w I Hn Hw; [reflexivity|].
  destruct (step_ok done w e I (Hn e (or_introl eq_refl))) as (w' & Sp & J).
  { pose proof (Hw 0%nat e eq_refl) as X. cbn [firstn] in X. rewrite app_nil_r in X. exact X. }
  cbn [run map]. rewrite Sp. f_equal. apply (IH (done ++ [e]) w' J).
  - intros e' H'. apply Hn. now right.
  - intros i e' H'. specialize (Hw (S i) e' H'). cbn [firstn] in Hw. rewrite <- app_assoc. exact Hw.
Qed.
Lemma start_inv : inv [] start.
Proof. split; [intros n p []|]. split; [reflexivity|]. intros [|k] p H; discriminate. Qed.

(** If nobody writes to an array the cache shares, every grid is right after any
    history, whatever was evicted. *)
Theorem C172_history_partial h : (forall e, In e h -> (2 <= size_of e)%nat) -> (forall i e, nth_error h i = Some e -> ~ writes_to (firstn i h) e) ->
  run start h = map expected h.
Proof. intros Hn Hw. apply (run_ok h [] start start_inv Hn). exact Hw. Qed.
Print Assumptions C172_history_partial.

(** With functions on a domain nothing the user does to arrays matters. *)
Definition fun_level (e : event) : Prop := match e with FunX _ _ _ | SampleFun _ _ _ _ | NestFun _ _ _ _ | Write _ _ => True | _ => False end.
Theorem C172_fun_level_partial h : (forall e, In e h -> fun_level e /\ (2 <= size_of e)%nat) -> run start h = map expected h.
Proof.
  intros H. apply C172_history_partial; [intros e He; apply H, He|]. intros i e He W. pose proof (nth_error_In _ _ He) as Hin. destruct (H e Hin) as [F _].
  destruct e as [n|a b n|k g|n g|n g|a b n g|a b n g]; cbn [writes_to fun_level] in *; try contradiction. destruct W as [n W].
  assert (X : In (TechX n) h). { rewrite <- (firstn_skipn i h). apply in_or_app. left. exact (nth_error_In _ _ W). } destruct (H _ X) as [[] _].
Qed.
Print Assumptions C172_fun_level_partial.

(** A callable that works in place, given to chebtech, spoils later functions. *)
Lemma sin_end : sin (PI * (2 * INR 2 - INR 2) / (2 * INR 2)) = 1.
Proof. rewrite <- sin_PI2. f_equal. cbn [INR]. field. Qed.
Theorem C172_inplace_refuted a b : a <> b ->
  run start [SampleTech 3 (map (fun x => 0)); SampleFun a b 3 (fun l => l)] = [expected (TechX 3); Points [(a + b) / 2; (a + b) / 2; (a + b) / 2]]
  /\ expected (SampleFun a b 3 (fun l => l)) <> Points [(a + b) / 2; (a + b) / 2; (a + b) / 2].
Proof.
  intros Hab. split.
  - cbn [run step points start find lru mem next res fst Nat.eqb firstn ret write store filter negb fresh Nat.leb]. rewrite cheb_grid by lia. cbn [expected].
    assert (Q : map_fwd a b 0 = (a + b) / 2) by (unfold map_fwd; field). unfold all_of. cbn [seq map]. rewrite !Q. reflexivity.
  - cbn [expected]. unfold all_of. cbn [seq map]. intros E. injection E as _ _ E. unfold grid_on, grid in E. cbn [Nat.sub] in E. rewrite sin_end in E. lra.
Qed.
Print Assumptions C172_inplace_refuted.
(** So does writing to the points of a chebtech. *)
Theorem C172_write_refuted a b : a <> b ->
  run start [TechX 3; Write 0 (map (fun x => 0)); SampleFun a b 3 (fun l => l)] = [expected (TechX 3); Nothing; Points [(a + b) / 2; (a + b) / 2; (a + b) / 2]].
Proof.
  intros Hab. cbn [run step points start find lru mem next res fst Nat.eqb firstn ret write store filter negb fresh app nth Nat.leb]. rewrite cheb_grid by lia. cbn [expected].
  assert (Q : map_fwd a b 0 = (a + b) / 2) by (unfold map_fwd; field). unfold all_of. cbn [seq map]. rewrite !Q. reflexivity.
Qed.
Print Assumptions C172_write_refuted.
(** The points of a constant function cannot be asked for. *)
Theorem C172_constant_refuted a b h : run start (h ++ [FunX a b 1]) = run start h ++ [Raises].
Proof.
  generalize start. induction h as [|e h IH]; intros w.
  - cbn [app run step]. destruct (points w 1) as [w' p]. reflexivity.
  - cbn [app run]. destruct (step w e) as [w' s]. now rewrite IH.
Qed.
Print Assumptions C172_constant_refuted.

(** ** A case that meets the hypotheses: evictions, in-place work on the user's own arrays. *)
Example C172_case : let h := map TechX (seq 2 40) ++ [FunX 0 1 9; Write 40 (map (fun _ => 7)); SampleFun 0 1 9 (map (fun _ => 7)); NestTech 9 (fun l => l); TechX 2] in
  run start h = map expected h.
Proof.
  apply C172_history_partial.
  - intros e He. apply in_app_or in He. destruct He as [He|He].
    + apply in_map_iff in He. destruct He as (n & <- & Hn). apply in_seq in Hn. cbn. lia.
    + cbn in He. intuition; subst; cbn; lia.
  - intros i e He W. destruct (Nat.lt_ge_cases i 40) as [L|L].
    + rewrite nth_error_app1 in He by (rewrite map_length, seq_length; exact L). apply nth_error_In, in_map_iff in He. destruct He as (n & <- & _). exact W.
    + rewrite nth_error_app2 in He by (rewrite map_length, seq_length; exact L). rewrite map_length, seq_length in He.
      destruct (i - 40)%nat as [|[|[|[|[|d]]]]] eqn:E; cbn in He; try (injection He as <-); cbn [writes_to] in W; try contradiction; try discriminate.
      * replace i with 41%nat in W by lia. destruct W as [n W]. discriminate W.
      * destruct W as [l W]. now apply W.
      * destruct d; discriminate.
Qed.
