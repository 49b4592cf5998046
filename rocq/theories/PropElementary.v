(** * C133: the remaining elementary functions

    Public functions that other properties only use: the constructors and the evaluation of Term, grad, get_box_iter, indexing and swap of
    matrices, zero_rows, and new_int, powi, sgn and partial_cmp of Rational; and the text printed by the program. *)
From Coq Require Import ZArith QArith Lia.
From Verif Require Import Base BaseLemmas IntModel IntProofs RatModel FieldIface RatProofs MDegModel OrdModel PolyModel MatModel UtilModel AlgModel
  MonoSpec MDegProofs PolySpec PolyProofs PropPoly MainModel.
Import ListNotations.
Local Open Scope nat_scope.

(** ** terms *)
Section Terms.
Context {F : FieldImpl} {K : MathField} (FS : FieldSpec F K).
Add Field Kf60 : (kth K).
Notation term := (term F).
Notation tcoef_at t m := (coeff (it FS t) m).

Theorem C133_term_constructors :
  (forall i k, k <= 255 -> twf FS (term_var i k) /\ forall m, tcoef_at (term_var i k) m = if mono_dec (mvar i k) m then k1 else k0) /\
  (forall i, term_var (F := F) i 0 = term_one) /\
  (twf FS term_one /\ forall m, tcoef_at term_one m = if mono_dec mone m then k1 else k0) /\
  (twf0 FS term_zero /\ forall m, tcoef_at term_zero m = k0) /\
  (forall c, fwf FS c -> twf0 FS (term_constant c) /\ forall m, tcoef_at (term_constant c) m = if mono_dec mone m then den FS c else k0) /\
  (forall d, mwf d -> twf FS (term_monic d) /\ forall m, tcoef_at (term_monic d) m = if mono_dec (canon d) m then k1 else k0).
Proof.
  split; [|split; [|split; [|split; [|split]]]].
  - intros i k H. destruct (term_var_ok FS i k H) as [W E]. split; [exact W|]. intros m. rewrite E. apply coeff_pterm.
  - reflexivity.
  - split; [apply term_one_wf|]. intros m. rewrite it_term_one. apply coeff_pterm.
  - split; [split; [apply (wf0 _ _ FS)|apply mwf_nil]|]. intros m. unfold PolyProofs.it. rewrite coeff_pterm. cbn [term_zero coef tdeg]. rewrite (den0 _ _ FS). destruct (mono_dec _ m); reflexivity.
  - intros c W. split; [split; [exact W|apply mwf_nil]|]. intros m. unfold PolyProofs.it. rewrite coeff_pterm. reflexivity.
  - intros d W. split; [split; [apply (wf1 _ _ FS)|split; [cbn; rewrite (den1 _ _ FS); apply k1_neq_0|exact W]]|]. intros m. unfold PolyProofs.it. rewrite coeff_pterm.
    cbn [term_monic coef tdeg]. rewrite (den1 _ _ FS). reflexivity.
Qed.

(** the value of a term: coef * prod x_i^d_i; the number of values is checked before anything is computed *)
Theorem C133_term_eval : forall (t : term) (x : list F), twf0 FS t -> Forall (fwf FS) x ->
  (length (tdeg t) <= length x -> safe (term_eval t x) (fun z => fwf FS z /\
     den FS z = kmul (den FS (coef t)) (fold_right kmul k1 (map (fun i => kpow (den FS (nth i x f0)) (nth i (tdeg t) 0)) (seq 0 (length (tdeg t))))))) /\
  (length x < length (tdeg t) -> term_eval t x = Panic Explicit).
Proof.
  intros t x W Hx. unfold term_eval, mdeg_len. split; intros L.
  - rewrite (proj2 (Nat.ltb_ge _ _) L). eapply safe_mono; [apply (eval_fold FS); [exact Hx|apply W|exact L|apply W]|]. intros z [Wz Dz]. split; [exact Wz|].
    rewrite Dz. f_equal. rewrite (kprod_seq (fun i => kpow (den FS (nth i x f0)) (nth i (tdeg t) 0)) (length (tdeg t)) 0). reflexivity.
  - rewrite (proj2 (Nat.ltb_lt _ _) L). reflexivity.
Qed.
End Terms.

(** ** grad: the comparison of total degrees *)
Theorem C133_grad : forall a b,
  (list_sum a <= 255 -> list_sum b <= 255 -> forall m, grad m a b = Ok (list_sum a ?= list_sum b)) /\
  (255 < list_sum a \/ 255 < list_sum b -> grad Debug a b = Panic Overflow /\ grad Release a b = Ok (list_sum a mod 256 ?= list_sum b mod 256)).
Proof.
  intros a b. unfold grad. split.
  - intros A B [|]; [rewrite !total_deg_debug|rewrite !total_deg_release, !Nat.mod_small by lia; reflexivity].
    rewrite (proj2 (Nat.leb_le _ _) A), (proj2 (Nat.leb_le _ _) B). reflexivity.
  - intros H. rewrite !total_deg_debug, !total_deg_release. split; [|reflexivity].
    destruct (Nat.leb_spec (list_sum a) 255) as [L|L]; [|reflexivity]. cbn [bind]. destruct (Nat.leb_spec (list_sum b) 255); [lia|reflexivity].
Qed.

(** ** get_box_iter: all index pairs, row by row *)
Lemma box_nth cols : forall rows r0 i j, i < rows -> j < cols ->
  nth_error (flat_map (fun r => map (fun c => (r, c)) (seq 0 cols)) (seq r0 rows)) (i * cols + j) = Some (r0 + i, j).
Proof.
  induction rows as [|rows IH]; intros r0 i j Hi Hj; [lia|]. cbn [seq flat_map]. destruct i as [|i].
  - rewrite nth_error_app1 by (rewrite map_length, seq_length; lia). rewrite nth_error_map, (nth_error_nth' _ 0) by (rewrite seq_length; lia).
    rewrite seq_nth by lia. cbn. rewrite Nat.add_0_r. reflexivity.
  - rewrite nth_error_app2 by (rewrite map_length, seq_length; nia). rewrite map_length, seq_length. replace (S i * cols + j - cols) with (i * cols + j) by nia.
    rewrite IH by lia. f_equal. f_equal. lia.
Qed.
Theorem C133_box : forall rows cols,
  length (get_box_iter rows cols) = rows * cols /\
  (forall i j, i < rows -> j < cols -> nth_error (get_box_iter rows cols) (i * cols + j) = Some (i, j)) /\
  (forall i j, In (i, j) (get_box_iter rows cols) <-> i < rows /\ j < cols) /\ NoDup (get_box_iter rows cols).
Proof.
  intros rows cols. unfold get_box_iter.
  assert (L : forall n r0, length (flat_map (fun r => map (fun c => (r, c)) (seq 0 cols)) (seq r0 n)) = n * cols).
  { induction n as [|n IH]; intros r0; [reflexivity|]. cbn [seq flat_map]. rewrite app_length, map_length, seq_length, IH. lia. }
  assert (N : forall i j, i < rows -> j < cols -> nth_error (flat_map (fun r => map (fun c => (r, c)) (seq 0 cols)) (seq 0 rows)) (i * cols + j) = Some (i, j)).
  { intros i j Hi Hj. rewrite (box_nth cols rows 0 i j Hi Hj). reflexivity. }
  split; [apply L|]. split; [exact N|]. split.
  - intros i j. split.
    + intros H. apply in_flat_map in H as (r & Hr & H). apply in_map_iff in H as (c & E & Hc). injection E as -> ->. apply in_seq in Hr. apply in_seq in Hc. lia.
    + intros [Hi Hj]. eapply nth_error_In. apply N; assumption.
  - apply NoDup_nth_error. intros k k' Hk E. rewrite L in Hk.
    assert (C : 0 < cols) by (destruct cols; lia).
    assert (D : forall z, z < rows * cols -> nth_error (flat_map (fun r => map (fun c => (r, c)) (seq 0 cols)) (seq 0 rows)) z = Some (z / cols, z mod cols)).
    { intros z Hz. rewrite <- (N (z / cols) (z mod cols)).
      - f_equal. rewrite (Nat.div_mod z cols) at 1 by lia. lia.
      - apply Nat.div_lt_upper_bound; lia.
      - apply Nat.mod_upper_bound. lia. }
    destruct (Nat.lt_ge_cases k' (rows * cols)) as [Hk'|Hk'].
    + rewrite (D k Hk), (D k' Hk') in E. injection E as E1 E2. rewrite (Nat.div_mod k cols), (Nat.div_mod k' cols) by lia. congruence.
    + rewrite (D k Hk), (proj2 (nth_error_None _ _)) in E by (rewrite L; exact Hk'). discriminate.
Qed.

(** ** reading, writing and swapping entries of a matrix, for every coefficient type *)
Section Entries.
Context {F : FieldImpl}.
Notation mat := (mat F).
(** a matrix as the constructors build it *)
Definition whole (a : mat) : Prop := length (ments a) = mrows a * mcols a.

Lemma flat_lt (a : mat) r c : whole a -> r < mrows a -> c < mcols a -> r * mcols a + c < length (ments a).
Proof. unfold whole. intros -> Hr Hc. nia. Qed.
Lemma flat_inj n r c r' c' : c < n -> c' < n -> r * n + c = r' * n + c' -> r = r' /\ c = c'.
Proof. intros H H' E. assert (r = r') by nia. subst. lia. Qed.

Theorem C133_index : forall (a : mat) r c, whole a ->
  (r < mrows a -> c < mcols a -> exists x, mget a r c = Ok x) /\
  (mrows a <= r -> mget a r c = Panic IndexOOB /\ forall x, mset a r c x = Panic IndexOOB) /\
  (forall x, r < mrows a -> c < mcols a -> exists b, mset a r c x = Ok b /\ whole b /\ mrows b = mrows a /\ mcols b = mcols a /\ mget b r c = Ok x /\
     forall r' c', r' < mrows a -> c' < mcols a -> (r', c') <> (r, c) -> mget b r' c' = mget a r' c') /\
  (** a column that does not exist is not rejected: it is read from the next row *)
  (r + 1 < mrows a -> c < mcols a -> mget a r (mcols a + c) = mget a (r + 1) c).
Proof.
  intros a r c W. split; [|split; [|split]].
  - intros Hr Hc. unfold mget, vget. destruct (nth_error (ments a) (r * mcols a + c)) eqn:E; [eauto|]. apply nth_error_None in E. pose proof (flat_lt a r c W Hr Hc). lia.
  - intros H. assert (G : length (ments a) <= r * mcols a + c) by (unfold whole in W; rewrite W; nia). split.
    + unfold mget, vget. rewrite (proj2 (nth_error_None _ _)); [reflexivity|exact G].
    + intros x. unfold mset, vset. rewrite (proj2 (Nat.ltb_ge _ _) G). reflexivity.
  - intros x Hr Hc. pose proof (flat_lt a r c W Hr Hc) as L. unfold mset, vset. rewrite (proj2 (Nat.ltb_lt _ _) L). cbn [bind].
    eexists. split; [reflexivity|]. unfold whole, mget, vget. cbn [ments mrows mcols]. rewrite list_set_length. split; [exact W|]. split; [reflexivity|]. split; [reflexivity|]. split.
    + rewrite nth_error_list_set, Nat.eqb_refl, (proj2 (Nat.ltb_lt _ _) L). reflexivity.
    + intros r' c' Hr' Hc' N. rewrite nth_error_list_set. destruct (Nat.eqb_spec (r * mcols a + c) (r' * mcols a + c')) as [E|]; [|reflexivity].
      apply flat_inj in E as [-> ->]; [congruence|assumption|assumption].
  - intros Hr Hc. unfold mget. f_equal. nia.
Qed.

Theorem C133_swap : forall (a : mat) r c r' c', whole a -> r < mrows a -> c < mcols a -> r' < mrows a -> c' < mcols a ->
  exists b, mat_swap a (r, c) (r', c') = Ok b /\ whole b /\ mrows b = mrows a /\ mcols b = mcols a /\
    mget b r c = mget a r' c' /\ mget b r' c' = mget a r c /\
    forall i j, i < mrows a -> j < mcols a -> (i, j) <> (r, c) -> (i, j) <> (r', c') -> mget b i j = mget a i j.
Proof.
  intros a r c r' c' W Hr Hc Hr' Hc'. destruct (proj1 (C133_index a r c W) Hr Hc) as (x & Ex). destruct (proj1 (C133_index a r' c' W) Hr' Hc') as (y & Ey).
  unfold mat_swap. cbn [fst snd]. rewrite Ex, Ey. cbn [bind].
  destruct (proj1 (proj2 (proj2 (C133_index a r c W))) y Hr Hc) as (a1 & -> & W1 & R1 & C1 & G1 & O1). cbn [bind].
  destruct (proj1 (proj2 (proj2 (C133_index a1 r' c' W1))) x ltac:(lia) ltac:(lia)) as (b & -> & W2 & R2 & C2 & G2 & O2).
  exists b. split; [reflexivity|]. split; [exact W2|]. split; [congruence|]. split; [congruence|]. rewrite R1, C1 in O2.
  assert (P : {(r, c) = (r', c')} + {(r, c) <> (r', c')}) by (decide equality; apply Nat.eq_dec).
  split; [|split].
  - destruct P as [P|P]; [injection P as <- <-; congruence|]. rewrite O2 by assumption. congruence.
  - congruence.
  - intros i j Hi Hj N N'. rewrite O2 by assumption. apply O1; assumption.
Qed.

(** zero_rows counts the rows in which every entry is epsilon-equal to zero *)
Theorem C133_zero_rows : forall (T : StabImpl F) (a : mat), whole a ->
  exists zs, zero_rows T a = Ok (length zs) /\ NoDup zs /\
    forall i, In i zs <-> i < mrows a /\ forall j x, j < mcols a -> mget a i j = Ok x -> feps T x f0 = true.
Proof.
  intros T a W. unfold zero_rows.
  set (zero i := forallb (fun x => feps T x f0) (firstn (mcols a) (skipn (i * mcols a) (ments a)))).
  assert (Ent : forall i j, i < mrows a -> j < mcols a -> nth_error (firstn (mcols a) (skipn (i * mcols a) (ments a))) j = nth_error (ments a) (i * mcols a + j)).
  { intros i j Hi Hj. generalize (skipn_length (i * mcols a) (ments a)); intros _.
    assert (X : forall (l : list F) n k, k < n -> nth_error (firstn n l) k = nth_error l k).
    { induction l as [|y l IH]; intros [|n] [|k] H; try lia; try reflexivity. cbn. apply IH. lia. }
    assert (Y : forall n (l : list F) k, nth_error (skipn n l) k = nth_error l (n + k)) by (induction n as [|n IH]; intros [|y l] k; try reflexivity; [destruct k; reflexivity|cbn; apply IH]).
    rewrite X by exact Hj. apply Y. }
  assert (Z : forall i, i < mrows a -> (zero i = true <-> forall j x, j < mcols a -> mget a i j = Ok x -> feps T x f0 = true)).
  { intros i Hi. unfold zero. rewrite forallb_forall. split.
    - intros H j x Hj E. apply H. unfold mget, vget in E. destruct (nth_error (ments a) (i * mcols a + j)) eqn:N; [|discriminate]. injection E as ->.
      apply nth_error_In with (n := j). rewrite Ent; assumption.
    - intros H x I. apply In_nth_error in I as (j & E).
      assert (Hj : j < mcols a) by (assert (X : j < length (firstn (mcols a) (skipn (i * mcols a) (ments a)))) by (apply nth_error_Some; congruence); rewrite firstn_length in X; lia).
      apply (H j x Hj). unfold mget, vget. rewrite <- (Ent i j Hi Hj), E. reflexivity. }
  assert (FN : forall i, i < mrows a -> exists o, first_nonzero T a i = Ok o /\ (o = None <-> zero i = true)).
  { intros i Hi. unfold first_nonzero, mat_get_row, mat_row_slice.
    assert (LE : (i + 1) * mcols a <= length (ments a)) by (unfold whole in W; rewrite W; nia). rewrite (proj2 (Nat.leb_le _ _) LE). cbn [bind mat_from_iter ments].
    eexists. split; [reflexivity|]. unfold zero. generalize (firstn (mcols a) (skipn (i * mcols a) (ments a))). intros l. induction l as [|x l IH]; [split; reflexivity|].
    cbn [position forallb]. destruct (feps T x f0); cbn [negb andb]; [|split; discriminate]. destruct (position _ l); [|exact IH]. split; [discriminate|]. intros H. apply IH in H. discriminate. }
  assert (G : forall is k, (forall i, In i is -> i < mrows a) ->
     foldM (fun k r => o <- first_nonzero T a r ;; Ok (match o with None => k + 1 | Some _ => k end)) is k = Ok (k + length (filter zero is))).
  { induction is as [|i is IH]; intros k H; [cbn; f_equal; lia|]. cbn [foldM]. destruct (FN i (H i (or_introl eq_refl))) as (o & -> & Ho). cbn [bind filter].
    assert (H' : forall j, In j is -> j < mrows a) by (intros j I; apply H; right; exact I).
    destruct o as [p|].
    - destruct (zero i); [exfalso; assert (Some p = None) by (apply Ho; reflexivity); discriminate|]. apply IH. exact H'.
    - rewrite (proj1 Ho eq_refl). rewrite IH by exact H'. cbn [length]. f_equal. lia. }
  exists (filter zero (seq 0 (mrows a))). split; [rewrite G; [reflexivity|]; intros i I; apply in_seq in I; lia|].
  split; [apply NoDup_filter, seq_NoDup|]. intros i. rewrite filter_In, in_seq. split.
  - intros [I E]. split; [lia|]. apply Z; [lia|exact E].
  - intros [I E]. split; [lia|]. apply Z; [exact I|exact E].
Qed.
End Entries.

(** ** Rational *)
Theorem C133_rational : forall m r i e,
  (rat_val (rat_new_int i) == inject_Z i)%Q /\ denom (rat_new_int i) = 1%Z /\
  rat_powi m r e = rat_pow m r e /\
  ((0 < denom r)%Z -> (rat_sgn r = 1%Z <-> 0 < rat_val r)%Q /\ (rat_sgn r = 0%Z <-> rat_val r == 0)%Q /\ (rat_sgn r = (-1)%Z <-> rat_val r < 0)%Q) /\
  (forall s, rat_partial_cmp m r s = match rat_cmp m r s with Ok c => Ok (Some c) | Panic k => Panic k | NoFuel => NoFuel end).
Proof.
  intros m r i e. split; [unfold rat_val, rat_new_int; cbn; reflexivity|]. split; [reflexivity|]. split; [reflexivity|]. split.
  - intros H. unfold rat_sgn, int_sgn, rat_val, Qlt, Qeq. cbn [Qnum Qden]. pose proof (Z.sgn_spec (numer r)). lia.
  - intros s. unfold rat_partial_cmp. destruct (rat_cmp m r s); reflexivity.
Qed.

(** ** concrete cases *)
Definition el_m : mat (rat_impl Debug) := @mkmat (rat_impl Debug) [mkrat 1 1; mkrat 2 1; rat_zero; rat_zero] 2 2.
Example C133_ex_mat : whole el_m /\ mat_swap el_m (0, 1) (1, 0) = Ok (@mkmat (rat_impl Debug) [mkrat 1 1; rat_zero; mkrat 2 1; rat_zero] 2 2) /\
  mget el_m 0 2 = Ok rat_zero /\ get_box_iter 2 3 = [(0, 0); (0, 1); (0, 2); (1, 0); (1, 1); (1, 2)].
Proof. split; [reflexivity|]. split; [reflexivity|]. split; reflexivity. Qed.
Example C133_ex_zero_rows : zero_rows (rat_stab Debug) el_m = Ok 1.
Proof. reflexivity. Qed.
Example C133_ex_term : term_eval (ex_t 3 1 [1; 2]) ([mkrat 2 1; mkrat 5 1] : list rat) = Ok (mkrat 150 1) /\
  term_eval (ex_t 3 1 [1; 2]) ([mkrat 2 1] : list rat) = Panic Explicit /\ twf0 rat_spec (ex_t 3 1 [1; 2]).
Proof. split; [reflexivity|]. split; [reflexivity|]. apply twf_twf0. apply ex_wf; [reflexivity|discriminate|]. apply mwf_b; reflexivity. Qed.
Example C133_ex_grad : grad Debug [200; 56] [1] = Panic Overflow /\ grad Release [200; 56] [1] = Ok Lt /\ list_sum [200; 56] = 256.
Proof. repeat split; reflexivity. Qed.

(** ** main.rs *)
(** the program prints a blank line and then (x + y)(x - y) = x² - y², in every build *)
Theorem C133_main : forall m, main_output m = Ok (map Z.of_nat
  ([10; 40; 120; 32; 43; 32; 121; 41; 40; 120; 32; 45; 32; 121; 41; 32; 61; 32; 120; 178; 32; 45; 32; 121; 178; 10])).
Proof. intros m. exact (main_prints m). Qed.

Print Assumptions C133_term_constructors.
Print Assumptions C133_term_eval.
Print Assumptions C133_grad.
Print Assumptions C133_box.
Print Assumptions C133_index.
Print Assumptions C133_swap.
Print Assumptions C133_zero_rows.
Print Assumptions C133_rational.
Print Assumptions C133_main.
