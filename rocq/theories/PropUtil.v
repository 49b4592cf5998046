(** * Properties C59-C61: the helpers of src/linalg/util.rs. *)
From Verif Require Import Base BaseLemmas IntModel RatModel FieldIface RatProofs UtilModel MatModel RrefSpec MatProofs AlgProofs NoOverflow.
Local Open Scope nat_scope.

(** ** C59 *)
(** the number a little-endian digit list stands for *)
Fixpoint of_digits (base : Z) (ds : list Z) : Z :=
  match ds with [] => 0 | d :: ds' => d + base * of_digits base ds' end%Z.

Section Digits.
Local Open Scope Z_scope.

(** the first [k] digits, padded with zeros *)
Fixpoint digits (b : Z) (k : nat) (n : Z) : list Z :=
  match k with O => [] | S k' => n mod b :: digits b k' (n / b) end.
Lemma digits_length b k n : length (digits b k n) = k.
Proof. revert n; induction k; intros; simpl; [reflexivity|]. rewrite IHk. reflexivity. Qed.
Lemma digits_zero b k : digits b k 0 = repeat 0 k.
Proof. induction k; simpl; [reflexivity|]. rewrite Zmod_0_l, Zdiv_0_l, IHk. reflexivity. Qed.
Lemma digits_range b k n : 0 < b -> Forall (fun d => 0 <= d < b) (digits b k n).
Proof. intros Hb. revert n; induction k; intros; simpl; constructor; [apply Z.mod_pos_bound; exact Hb|apply IHk]. Qed.
Lemma of_digits_digits b k n : 0 < b -> 0 <= n < b ^ Z.of_nat k -> of_digits b (digits b k n) = n.
Proof.
  intros Hb. revert n; induction k; intros n Hn.
  - simpl in *. lia.
  - cbn [digits of_digits]. rewrite IHk.
    + pose proof (Z_div_mod_eq_full n b). lia.
    + rewrite Nat2Z.inj_succ, Z.pow_succ_r in Hn by lia. split; [apply Z.div_pos; lia|apply Z.div_lt_upper_bound; lia].
Qed.
Lemma digits_of_digits b ds : 0 < b -> Forall (fun d => 0 <= d < b) ds ->
  digits b (length ds) (of_digits b ds) = ds /\ 0 <= of_digits b ds < b ^ Z.of_nat (length ds).
Proof.
  intros Hb. induction 1 as [|d ds Hd _ [IH1 IH2]]; [split; [reflexivity|simpl; lia]|].
  cbn [digits of_digits length]. split.
  - rewrite (Z.mul_comm b), Z_mod_plus_full. rewrite Z_div_plus_full by lia.
    rewrite (Z.mod_small d b Hd), (Z.div_small d b Hd). rewrite Z.add_0_l, IH1. reflexivity.
  - rewrite Nat2Z.inj_succ, Z.pow_succ_r by lia. nia.
Qed.

(** a run of the iterator from a state whose next quotient is [n] *)
Lemma collect_digits b k : 2 <= b -> forall n st fuel, 0 <= n < b ^ Z.of_nat k -> st / b = n -> (k < fuel)%nat ->
  exists ds, base_seq_collect fuel b st = Ok ds /\ (length ds <= k)%nat /\
    ds ++ repeat 0 (k - length ds) = digits b k n /\ (ds <> [] -> last ds 0 <> 0) /\ (ds = [] -> n = 0).
Proof.
  intros Hb. induction k; intros n st fuel Hn Hst Hf; (destruct fuel as [|fuel]; [lia|]).
  - simpl in Hn. assert (n = 0) by lia. subst n. exists []. cbn [base_seq_collect].
    unfold base_seq_next. destruct (Z.eqb_spec b 0); [lia|]. cbn [bind]. rewrite H. cbn. split; [reflexivity|]. split; [lia|]. split; [reflexivity|]. split; [congruence|reflexivity].
  - cbn [base_seq_collect]. unfold base_seq_next. destruct (Z.eqb_spec b 0); [lia|]. cbn [bind]. rewrite Hst.
    destruct (Z.eqb_spec n 0) as [->|Nn].
    + exists []. cbn [bind length]. split; [reflexivity|]. split; [lia|]. split; [|split; [congruence|auto]].
      rewrite digits_zero. rewrite Nat.sub_0_r. reflexivity.
    + destruct (IHk (n / b) n fuel) as (ds & E & L & P & Q & R); [|reflexivity|lia|].
      { rewrite Nat2Z.inj_succ, Z.pow_succ_r in Hn by lia. split; [apply Z.div_pos; lia|apply Z.div_lt_upper_bound; lia]. }
      rewrite E. cbn [bind]. exists (n mod b :: ds). split; [reflexivity|]. cbn [length digits app Nat.sub].
      split; [lia|]. split; [rewrite P; reflexivity|]. split; [|discriminate]. intros _.
      destruct ds as [|d ds]; [|exact (Q ltac:(discriminate))]. cbn. specialize (R eq_refl).
      pose proof (Z_div_mod_eq_full n b). rewrite R in H. lia.
Qed.
Lemma pow_bound n b : 2 <= b -> 0 <= n -> n < b ^ Z.of_nat (Z.to_nat n).
Proof.
  intros Hb Hn. rewrite Z2Nat.id by exact Hn.
  apply Z.lt_le_trans with (2 ^ n); [apply Z.pow_gt_lin_r; lia|apply Z.pow_le_mono_l; lia].
Qed.
Lemma of_digits_app_zeros b ds k : of_digits b (ds ++ repeat 0 k) = of_digits b ds.
Proof.
  induction ds as [|d ds IH]; cbn [app of_digits].
  - induction k; cbn [repeat of_digits]; [reflexivity|]. rewrite IHk. lia.
  - rewrite IH. reflexivity.
Qed.

(** the iteration from a start [s] yields the digits of [s / base] *)
Lemma collect_all b n s : 2 <= b -> 0 <= s -> s / b = n ->
  exists ds, (forall d, In d ds -> 0 <= d < b) /\ of_digits b ds = n /\ (ds <> [] -> last ds 0 <> 0) /\
    exists N, forall fuel, (N <= fuel)%nat -> base_seq_collect fuel b s = Ok ds.
Proof.
  intros Hb Hs Es. assert (Hn : 0 <= n) by (rewrite <- Es; apply Z.div_pos; lia).
  pose proof (pow_bound n b Hb Hn) as Hp. set (k := Z.to_nat n) in *.
  destruct (collect_digits b k Hb n s (S k)) as (ds & E & L & P & Q & R); [lia|exact Es|lia|].
  exists ds. split; [|split; [|split; [exact Q|]]].
  - pose proof (digits_range b k n ltac:(lia)) as D. rewrite <- P, Forall_app in D. destruct D as [D _].
    rewrite Forall_forall in D. exact D.
  - rewrite <- (of_digits_app_zeros b ds (k - length ds)), P. apply of_digits_digits; lia.
  - exists (S k). intros fuel Hf.
    destruct (collect_digits b k Hb n s fuel) as (ds' & E' & L' & P' & Q' & R'); [lia|exact Es|lia|].
    rewrite E'. f_equal.
    (* both have the same padding and no trailing zero *)
    assert (U : forall l l' : list Z, l ++ repeat 0 (k - length l) = l' ++ repeat 0 (k - length l') ->
      (length l <= k)%nat -> (length l' <= k)%nat -> (l' <> [] -> last l' 0 <> 0) -> (length l' <= length l)%nat).
    { clear. intros l l' E L L' N. destruct (Nat.le_gt_cases (length l') (length l)) as [|G]; [assumption|exfalso].
      assert (l' <> []) by (intros ->; simpl in G; lia). apply (N H).
      destruct (exists_last H) as (m & x & ->). rewrite last_last. rewrite app_length in *. cbn [length] in *.
      assert (nth (length m) (l ++ repeat 0 (k - length l)) 1 = x).
      { rewrite E, app_nth1 by (rewrite app_length; simpl; lia). rewrite app_nth2, Nat.sub_diag by lia. reflexivity. }
      rewrite app_nth2 in H0 by lia. rewrite <- H0. apply (repeat_spec (k - length l) 0). apply nth_In. rewrite repeat_length. lia. }
    assert (LL : length ds' = length ds).
    { apply Nat.le_antisymm; apply U; try assumption; congruence. }
    rewrite <- P' in P. rewrite LL in P. apply app_inv_tail in P. congruence.
Qed.
Theorem C59_digits : forall n base, 2 <= base -> 0 <= n -> n * base <= usize_max ->
  exists ds, (forall d, In d ds -> 0 <= d < base) /\ of_digits base ds = n /\ (ds <> [] -> last ds 0 <> 0) /\
    exists N, forall fuel, (N <= fuel)%nat -> num_to_seq Debug fuel n base = Ok ds.
Proof.
  intros n b Hb Hn Hm. destruct (collect_all b n (n * b) Hb ltac:(nia) ltac:(apply Z.div_mul; lia)) as (ds & A & B & C & N & D).
  exists ds. repeat (split; [assumption|]). exists N. intros fuel Hf. unfold num_to_seq, base_seq_new, usz.
  destruct (Z.leb_spec 0 (n * b)); [|nia]. destruct (Z.leb_spec (n * b) usize_max); [|lia]. apply D. exact Hf.
Qed.
(** without overflow checks the product with the base is taken modulo 2^64 first *)
Theorem C59_digits_release : forall n base, 2 <= base -> 0 <= n ->
  exists ds, (forall d, In d ds -> 0 <= d < base) /\ of_digits base ds = (n * base) mod 2 ^ 64 / base /\ (ds <> [] -> last ds 0 <> 0) /\
    exists N, forall fuel, (N <= fuel)%nat -> num_to_seq Release fuel n base = Ok ds.
Proof.
  intros n b Hb Hn. destruct (collect_all b _ ((n * b) mod 2 ^ 64) Hb (proj1 (Z.mod_pos_bound _ (2 ^ 64) ltac:(lia))) eq_refl) as (ds & A & B & C & N & D).
  exists ds. repeat (split; [assumption|]). exists N. intros fuel Hf. unfold num_to_seq, base_seq_new, usz.
  change (usize_max + 1) with (2 ^ 64). destruct (Z.leb_spec 0 (n * b)); [|nia]. destruct (Z.leb_spec (n * b) usize_max); cbn [andb bind].
  - rewrite Z.mod_small in D by (unfold usize_max in *; lia). apply D. exact Hf.
  - apply D. exact Hf.
Qed.
Example C59_ex_release : num_to_seq Release 10 (2 ^ 63 + 3) 4 = Ok [3] /\ num_to_seq Debug 10 (2 ^ 63 + 3) 4 = Panic Overflow.
Proof. split; reflexivity. Qed.
Theorem C59_base_one : forall n fuel, 0 < n <= usize_max -> num_to_seq Debug fuel n 1 = NoFuel.
Proof.
  intros n fuel Hn. unfold num_to_seq, base_seq_new, usz. rewrite Z.mul_1_r.
  destruct (Z.leb_spec 0 n); [|lia]. destruct (Z.leb_spec n usize_max); [|lia]. cbn [andb bind].
  induction fuel; [reflexivity|]. cbn [base_seq_collect]. unfold base_seq_next. cbn [bind Z.eqb]. rewrite Z.div_1_r.
  destruct (Z.eqb_spec n 0); [lia|]. rewrite IHfuel. reflexivity.
Qed.
Theorem C59_panics : forall n fuel,
  num_to_seq Debug (S fuel) n 0 = Panic DivZero /\
  (forall base, usize_max < n * base -> num_to_seq Debug fuel n base = Panic Overflow).
Proof.
  intros n fuel. split.
  - unfold num_to_seq, base_seq_new, usz. rewrite Z.mul_0_r. reflexivity.
  - intros b H. unfold num_to_seq, base_seq_new, usz. destruct (Z.leb_spec (n * b) usize_max); [lia|].
    rewrite andb_false_r. reflexivity.
Qed.
Example C59_ex : num_to_seq Debug 10 1234 10 = Ok [4; 3; 2; 1] /\ num_to_seq Debug 10 6 2 = Ok [0; 1; 1].
Proof. split; reflexivity. Qed.
End Digits.

(** ** C60 *)
Section Iterator.
Context {F : FieldImpl}.

Definition all_matrices (n k : nat) (values : list F) (a : mat F) : Prop :=
  mrows a = n /\ mcols a = k /\ length (ments a) = n * k /\ forall x, In x (ments a) -> In x values.

(** the matrix number [num] *)
Definition nth_matrix (n k : nat) (values : list F) (num : Z) : mat F :=
  mkmat (map (fun d => nth (Z.to_nat d) values f0) (digits (Z.of_nat (length values)) (n * k) num)) n k.

Lemma mapM_lookup (values : list F) ds : Forall (fun d => (0 <= d < Z.of_nat (length values))%Z) ds ->
  mapM (fun d => vget values (Z.to_nat d)) ds = Ok (map (fun d => nth (Z.to_nat d) values f0) ds).
Proof.
  intros H. induction H as [|d ds Hd _ IH]; [reflexivity|]. cbn [mapM map].
  rewrite (vget_Ok _ _ f0) by lia. cbn [bind]. rewrite IH. reflexivity.
Qed.
(** the size of the iteration fits the machine: the exponent is an u32 and the products computed by
    num_to_seq are usizes *)
Definition iteration_fits (n k : nat) (values : list F) : Prop :=
  (Z.of_nat n * Z.of_nat k < 4294967296 /\
   Z.of_nat (length values) ^ (Z.of_nat n * Z.of_nat k) <= usize_max /\
   (Z.of_nat (length values) ^ (Z.of_nat n * Z.of_nat k) - 1) * Z.of_nat (length values) <= usize_max)%Z.

Lemma iterator_limit n k (values : list F) : iteration_fits n k values ->
  usz Debug (Z.of_nat n * Z.of_nat k) = Ok (Z.of_nat n * Z.of_nat k)%Z /\
  usz Debug (Z.of_nat (length values) ^ ((Z.of_nat n * Z.of_nat k) mod 4294967296)) =
    Ok (Z.of_nat (length values) ^ (Z.of_nat n * Z.of_nat k))%Z.
Proof.
  intros (B1 & B2 & B3). unfold usize_max in *. rewrite Z.mod_small by lia. unfold usz, usize_max. split.
  - destruct (Z.leb_spec 0 (Z.of_nat n * Z.of_nat k)); [|lia].
    destruct (Z.leb_spec (Z.of_nat n * Z.of_nat k) 18446744073709551615); [reflexivity|lia].
  - pose proof (Z.pow_nonneg (Z.of_nat (length values)) (Z.of_nat n * Z.of_nat k) ltac:(lia)).
    destruct (Z.leb_spec 0 (Z.of_nat (length values) ^ (Z.of_nat n * Z.of_nat k))); [|lia].
    destruct (Z.leb_spec (Z.of_nat (length values) ^ (Z.of_nat n * Z.of_nat k)) 18446744073709551615); [reflexivity|lia].
Qed.

Lemma iterator_next n k (values : list F) num dfuel : iteration_fits n k values -> values <> [] ->
  (0 <= num < Z.of_nat (length values) ^ (Z.of_nat n * Z.of_nat k))%Z -> n * k < dfuel ->
  mat_iterator_next Debug dfuel n k values num = Ok ((num + 1)%Z, Some (nth_matrix n k values num)).
Proof.
  intros Fi NE Hnum Hf. destruct (iterator_limit _ _ _ Fi) as [E1 E2]. destruct Fi as (B1 & B2 & B3).
  set (b := Z.of_nat (length values)) in *. set (lim := (b ^ (Z.of_nat n * Z.of_nat k))%Z) in *.
  assert (Hb : (1 <= b)%Z) by (unfold b; destruct values; [congruence|simpl; lia]).
  unfold mat_iterator_next. fold b. rewrite E1. cbn [bind]. rewrite E2. cbn [bind].
  destruct (Z.leb_spec lim num); [lia|].
  unfold num_to_seq, base_seq_new.
  assert (EM : usz Debug (num * b) = Ok (num * b)%Z).
  { unfold usz. destruct (Z.leb_spec 0 (num * b)); [|nia].
    destruct (Z.leb_spec (num * b) usize_max); [reflexivity|]. nia. }
  rewrite EM. cbn [bind].
  assert (C : exists ds, base_seq_collect dfuel b (num * b) = Ok ds /\ length ds <= n * k /\
     ds ++ repeat 0%Z (n * k - length ds) = digits b (n * k) num).
  { destruct (Z.eq_dec b 1) as [B|B].
    - assert (num = 0)%Z. { unfold lim in Hnum. rewrite B, Z.pow_1_l in Hnum; lia. } subst num.
      destruct dfuel as [|dfuel]; [lia|]. exists []. cbn [base_seq_collect]. unfold base_seq_next.
      rewrite Z.mul_0_l, Zdiv_0_l. destruct (Z.eqb_spec b 0); [lia|]. cbn. split; [reflexivity|]. split; [lia|].
      rewrite Nat.sub_0_r, digits_zero. reflexivity.
    - destruct (collect_digits b (n * k) ltac:(lia) num (num * b) dfuel) as (ds & D1 & D2 & D3 & _); [|apply Z.div_mul; lia|exact Hf|eauto].
      rewrite Nat2Z.inj_mul. exact Hnum. }
  destruct C as (ds & -> & L & P). cbn [bind].
  assert (R : Forall (fun d => (0 <= d < b)%Z) (ds ++ repeat 0%Z (n * k - length ds))) by (rewrite P; apply digits_range; lia).
  apply Forall_app in R. destruct R as [R1 R2]. rewrite (mapM_lookup values ds R1). cbn [bind].
  rewrite map_length. rewrite <- Nat2Z.inj_mul, Nat2Z.id.
  assert (PAD : forall s len, mapM (fun _ : nat => vget values 0) (seq s len) = Ok (map (fun d => nth (Z.to_nat d) values f0) (repeat 0%Z len))).
  { intros s len. rewrite (mapM_Ok_intro _ (fun _ => nth 0 values f0)).
    - f_equal. revert s. induction len; intros s; [reflexivity|]. cbn [seq repeat map]. rewrite IHlen. reflexivity.
    - intros x _. apply vget_Ok. destruct values; [congruence|simpl; lia]. }
  rewrite PAD. cbn [bind].
  assert (EP : usz Debug (num + 1) = Ok (num + 1)%Z).
  { unfold usz. destruct (Z.leb_spec 0 (num + 1)); [|lia]. destruct (Z.leb_spec (num + 1) usize_max); [reflexivity|lia]. }
  rewrite EP. cbn [bind]. unfold nth_matrix. fold b. rewrite <- map_app, P. reflexivity.
Qed.

Lemma iterator_collect n k (values : list F) dfuel : iteration_fits n k values -> values <> [] -> n * k < dfuel ->
  forall c num fuel, (0 <= num)%Z -> (num + Z.of_nat c = Z.of_nat (length values) ^ (Z.of_nat n * Z.of_nat k))%Z -> c < fuel ->
  mat_iterator_collect Debug dfuel fuel n k values num =
    Ok (map (fun i => nth_matrix n k values (num + Z.of_nat i)) (seq 0 c)).
Proof.
  intros Fi NE Hd. induction c; intros num fuel Hn Hc Hf; (destruct fuel as [|fuel]; [lia|]); cbn [mat_iterator_collect].
  - unfold mat_iterator_next. destruct (iterator_limit _ _ _ Fi) as [-> E2]. cbn [bind]. rewrite E2. cbn [bind].
    destruct (Z.leb_spec (Z.of_nat (length values) ^ (Z.of_nat n * Z.of_nat k)) num); [reflexivity|lia].
  - rewrite iterator_next by (try assumption; lia). cbn [bind].
    rewrite (IHc (num + 1)%Z fuel) by lia. cbn [bind seq map]. rewrite Z.add_0_r. f_equal. f_equal.
    rewrite <- seq_shift, map_map. apply map_ext. intros i. f_equal. lia.
Qed.

Theorem C60_enumeration : forall n k (values : list F), values <> [] -> NoDup values -> iteration_fits n k values ->
  exists l, (exists N, forall dfuel fuel, N <= dfuel -> N <= fuel -> mat_iterator_collect Debug dfuel fuel n k values 0 = Ok l) /\
    NoDup l /\ length l = length values ^ (n * k) /\ forall a, In a l <-> all_matrices n k values a.
Proof.
  intros n k values NE ND Fi. set (b := Z.of_nat (length values)). set (c := length values ^ (n * k)).
  assert (Hb : (1 <= b)%Z) by (unfold b; destruct values; [congruence|simpl; lia]).
  assert (EC : Z.of_nat c = (b ^ Z.of_nat (n * k))%Z) by (unfold c, b; apply Nat2Z.inj_pow).
  assert (DN : forall d : Z, (0 <= d < b)%Z -> In (nth (Z.to_nat d) values f0) values).
  { intros d Hd. apply nth_In. unfold b in Hd. lia. }
  exists (map (fun i => nth_matrix n k values (0 + Z.of_nat i)) (seq 0 c)). split; [|split; [|split]].
  - exists (S (n * k + c)). intros dfuel fuel H1 H2. apply iterator_collect; try assumption; try lia.
    rewrite Z.add_0_l, EC, Nat2Z.inj_mul. reflexivity.
  - apply nodup_map_inj; [apply seq_NoDup|]. intros x y Hx Hy E. apply in_seq in Hx, Hy.
    unfold nth_matrix in E. fold b in E. rewrite !Z.add_0_l in E. injection E as E.
    assert (ED : digits b (n * k) (Z.of_nat x) = digits b (n * k) (Z.of_nat y)).
    { revert E. generalize (digits_range b (n * k) (Z.of_nat x) ltac:(lia)), (digits_range b (n * k) (Z.of_nat y) ltac:(lia)).
      generalize (digits b (n * k) (Z.of_nat x)), (digits b (n * k) (Z.of_nat y)).
      induction l as [|d l IH]; intros [|d' l'] R R' E; try discriminate; [reflexivity|].
      cbn [map] in E. injection E as E1 E2. inversion R; inversion R'; subst. f_equal; [|apply IH; assumption].
      apply (proj1 (NoDup_nth values f0) ND) in E1; unfold b in *; lia. }
    apply Nat2Z.inj. rewrite <- (of_digits_digits b (n * k) (Z.of_nat x)) by lia. rewrite ED. apply of_digits_digits; lia.
  - rewrite map_length, seq_length. reflexivity.
  - intros a. rewrite in_map_iff. split.
    + intros (i & <- & _). unfold all_matrices, nth_matrix. cbn [mrows mcols ments]. fold b.
      rewrite map_length, digits_length. repeat split. intros x Hx. apply in_map_iff in Hx. destruct Hx as (d & <- & Hd).
      apply DN. pose proof (digits_range b (n * k) (0 + Z.of_nat i) ltac:(lia)) as D. rewrite Forall_forall in D. auto.
    + intros (H1 & H2 & H3 & H4).
      assert (Ix : exists ds, Forall (fun d => (0 <= d < b)%Z) ds /\ map (fun d => nth (Z.to_nat d) values f0) ds = ments a).
      { clear H3. induction (ments a) as [|x es IH]; [exists []; split; [constructor|reflexivity]|].
        destruct IH as (ds & D1 & D2); [intros; apply H4; right; assumption|].
        destruct (In_nth values x f0 (H4 x (or_introl eq_refl))) as (i & Hi & Ei).
        exists (Z.of_nat i :: ds). split; [constructor; [unfold b; lia|exact D1]|]. cbn [map]. rewrite Nat2Z.id, Ei, D2. reflexivity. }
      destruct Ix as (ds & D1 & D2). assert (LD : length ds = n * k) by (rewrite <- H3, <- D2, map_length; reflexivity).
      destruct (digits_of_digits b ds ltac:(lia) D1) as [E1 E2]. rewrite LD in E1, E2.
      exists (Z.to_nat (of_digits b ds)). rewrite Z2Nat.id by lia. split.
      * unfold nth_matrix. fold b. rewrite Z.add_0_l, E1, D2. destruct a as [es r cc]. cbn in *. congruence.
      * apply in_seq. split; [lia|]. rewrite Nat.add_0_l. apply Nat2Z.inj_lt. rewrite Z2Nat.id by lia. lia.
Qed.
(** no values: nothing is produced, except that the single empty matrix is not found *)
Theorem C60_no_values : forall n k dfuel fuel, (Z.of_nat n * Z.of_nat k < 4294967296)%Z ->
  mat_iterator_collect Debug (S dfuel) (S fuel) n k ([] : list F) 0 = if n * k =? 0 then Panic DivZero else Ok [].
Proof.
  intros n k dfuel fuel Hb. cbn [mat_iterator_collect]. unfold mat_iterator_next. cbn [length Z.of_nat].
  assert (E : usz Debug (Z.of_nat n * Z.of_nat k) = Ok (Z.of_nat n * Z.of_nat k)%Z).
  { unfold usz, usize_max. destruct (Z.leb_spec 0 (Z.of_nat n * Z.of_nat k)); [|lia].
    destruct (Z.leb_spec (Z.of_nat n * Z.of_nat k) 18446744073709551615); [reflexivity|lia]. }
  rewrite E. cbn [bind]. rewrite Z.mod_small by lia. rewrite <- Nat2Z.inj_mul.
  destruct (Nat.eqb_spec (n * k) 0) as [->|N]; [reflexivity|].
  rewrite Z.pow_0_l by lia. reflexivity.
Qed.
(** too many matrices *)
Theorem C60_overflow : forall n k (values : list F) dfuel fuel, (Z.of_nat n * Z.of_nat k < 4294967296)%Z ->
  (usize_max < Z.of_nat (length values) ^ (Z.of_nat n * Z.of_nat k))%Z ->
  mat_iterator_collect Debug dfuel (S fuel) n k values 0 = Panic Overflow.
Proof.
  intros n k values dfuel fuel Hb Ho. cbn [mat_iterator_collect]. unfold mat_iterator_next.
  assert (E : usz Debug (Z.of_nat n * Z.of_nat k) = Ok (Z.of_nat n * Z.of_nat k)%Z).
  { unfold usz, usize_max. destruct (Z.leb_spec 0 (Z.of_nat n * Z.of_nat k)); [|lia].
    destruct (Z.leb_spec (Z.of_nat n * Z.of_nat k) 18446744073709551615); [reflexivity|lia]. }
  rewrite E. cbn [bind]. rewrite Z.mod_small by lia. unfold usz.
  destruct (Z.leb_spec (Z.of_nat (length values) ^ (Z.of_nat n * Z.of_nat k)) usize_max); [lia|].
  rewrite andb_false_r. reflexivity.
Qed.
(** the exponent is cut to 32 bits: with 2^32 entries the iterator stops after one matrix *)
Theorem C60_exponent_truncated : forall n k (values : list F) dfuel, (Z.of_nat n * Z.of_nat k = 4294967296)%Z ->
  mat_iterator_next Debug dfuel n k values 1 = Ok (1%Z, None).
Proof. intros n k values dfuel E. unfold mat_iterator_next. rewrite E. reflexivity. Qed.
Example C60_truncated_ex : (Z.of_nat (Z.to_nat 65536) * Z.of_nat (Z.to_nat 65536) = 4294967296)%Z.
Proof. rewrite Z2Nat.id by lia. reflexivity. Qed.
End Iterator.

Definition ex_vals : list (rat_impl Debug) := [mkrat 0 1 : rat_impl Debug; mkrat 1 1; mkrat (-1) 1].
Example C60_ex : iteration_fits 2 2 ex_vals /\ NoDup ex_vals /\ ex_vals <> [].
Proof.
  split; [unfold iteration_fits, usize_max, ex_vals; cbn; lia|]. split; [|discriminate].
  repeat constructor; cbn; intuition discriminate.
Qed.
Example C60_ex_run : mat_iterator_collect Debug 3 10 1 2 ex_vals 0 = Ok (map (fun p : rat * rat =>
    mkmat [fst p : rat_impl Debug; snd p] 1 2)
  [(mkrat 0 1, mkrat 0 1); (mkrat 1 1, mkrat 0 1); (mkrat (-1) 1, mkrat 0 1);
   (mkrat 0 1, mkrat 1 1); (mkrat 1 1, mkrat 1 1); (mkrat (-1) 1, mkrat 1 1);
   (mkrat 0 1, mkrat (-1) 1); (mkrat 1 1, mkrat (-1) 1); (mkrat (-1) 1, mkrat (-1) 1)]).
Proof. reflexivity. Qed.

(** ** C61 *)
(** a total preorder as a comparison function *)
Record total_preorder {A : Type} (cmp : A -> A -> comparison) : Prop := {
  tp_opp : forall x y, cmp y x = CompOpp (cmp x y);
  tp_trans : forall x y z, cmp x y <> Gt -> cmp y z <> Gt -> cmp x z <> Gt
}.
Theorem C61_last_maximum : forall {A : Type} (cmp : A -> A -> comparison) (le : A -> A -> res (option comparison)) (d : A) l,
  total_preorder cmp -> (forall x y, le x y = Ok (Some (cmp x y))) -> l <> [] ->
  exists i, get_max_index le l = Ok i /\ i < length l /\
    (forall j, j < length l -> cmp (nth j l d) (nth i l d) <> Gt) /\
    (forall j, i < j -> j < length l -> cmp (nth j l d) (nth i l d) = Lt).
Proof.
  intros A cmp le d l TP Hle NE.
  assert (RF : forall x, cmp x x = Eq).
  { intros x. pose proof (tp_opp _ TP x x) as E. destruct (cmp x x); simpl in E; congruence. }
  assert (S : safe (get_max_index le l) (fun i => exists x, i < length l /\ x = nth i l d /\
    (forall j, j < length l -> cmp (nth j l d) x <> Gt) /\ (forall j, i < j -> j < length l -> cmp (nth j l d) x = Lt))).
  { apply (get_max_index_inv le l (fun k i x => i < k /\ x = nth i l d /\
      (forall j, j < k -> cmp (nth j l d) x <> Gt) /\ (forall j, i < j -> j < k -> cmp (nth j l d) x = Lt))); [exact NE| |].
    - intros x E. apply (nth_error_nth _ _ d) in E. repeat split; [lia|congruence| |lia].
      intros j Hj. assert (j = 0) by lia. subst. rewrite RF. discriminate.
    - intros k i x y Hk Ey (H1 & H2 & H3 & H4). rewrite Hle. apply safe_Ok. exists (cmp x y). split; [reflexivity|].
      apply (nth_error_nth _ _ d) in Ey. split; intros C.
      + split; [lia|]. split; [exact H2|].
        assert (L : cmp y x = Lt) by (rewrite (tp_opp _ TP x y), C; reflexivity).
        split; intros j; intros.
        * destruct (Nat.eq_dec j k) as [->|]; [rewrite Ey, L; discriminate|apply H3; lia].
        * destruct (Nat.eq_dec j k) as [->|]; [rewrite Ey; exact L|apply H4; lia].
      + split; [lia|]. split; [congruence|]. split; [|lia]. intros j Hj.
        destruct (Nat.eq_dec j k) as [->|]; [rewrite Ey, RF; discriminate|].
        apply (tp_trans _ TP _ x); [apply H3; lia|exact C]. }
  apply safe_nov in S.
  - destruct S as (i & E & x & H1 & -> & H3 & H4). exists i. auto.
  - unfold get_max_index. apply nov_bind; [|intros; apply nov_bind; intros; [apply nov_unwrap|apply nov_Ok]].
    apply nov_max_by. intros p q. rewrite Hle. discriminate.
Qed.
Theorem C61_panics : forall {A : Type} (le : A -> A -> res (option comparison)),
  get_max_index le [] = Panic UnwrapNone /\
  (forall x, get_max_index le [x] = Ok 0) /\
  (forall x y l, le x y = Ok None -> get_max_index le (x :: y :: l) = Panic UnwrapNone) /\
  (forall l, (forall x y, In x l -> In y l -> exists c, le x y = Ok (Some c)) -> l <> [] -> exists i, get_max_index le l = Ok i) /\
  (forall l x y c, le x y = Ok (Some c) -> c <> Gt -> (forall z, In z l -> le y z = Ok (Some Gt)) ->
     forall w, le y w = Ok None -> get_max_index le (x :: y :: l ++ [w]) = Panic UnwrapNone).
Proof.
  intros A le. split; [reflexivity|]. split; [reflexivity|]. split; [|split].
  - intros x y l E. unfold get_max_index, enumerate. cbn [length seq combine max_by foldM snd]. rewrite E. reflexivity.
  - intros l H NE. unfold get_max_index, enumerate. destruct l as [|x l]; [congruence|]. clear NE.
    cbn [length seq combine max_by].
    assert (G : forall l' s best, incl l' (x :: l) -> In (snd best) (x :: l) ->
      exists b, foldM (fun p q : nat * A => c <- (c <- le (snd p) (snd q) ;; unwrap c) ;; Ok match c with Gt => p | _ => q end)
        (combine (seq s (length l')) l') best = Ok b).
    { induction l' as [|y l' IH]; intros s best Hi Hb; cbn [length seq combine foldM]; [eauto|].
      destruct (H (snd best) y Hb (Hi y (or_introl eq_refl))) as (c & E). cbn [snd]. rewrite E. cbn [bind unwrap].
      destruct c; cbn [bind]; apply IH; try (intros z Hz; apply Hi; right; exact Hz); try exact Hb; apply Hi; left; reflexivity. }
    destruct (G l 1 (0, x)) as (b & E); [intros z Hz; right; exact Hz|left; reflexivity|].
    rewrite E. cbn. eauto.
  - intros l x y c Exy Nc Hl w Ew. unfold get_max_index, enumerate. cbn [length seq combine max_by foldM snd].
    rewrite Exy. cbn [bind unwrap].
    assert (G : forall l s k, (forall z, In z l -> le y z = Ok (Some Gt)) ->
      foldM (fun p q : nat * A => c <- (c <- le (snd p) (snd q) ;; unwrap c) ;; Ok match c with Gt => p | _ => q end)
        (combine (seq s (length (l ++ [w]))) (l ++ [w])) (k, y) = Panic UnwrapNone).
    { clear l Hl. induction l as [|z l IH]; intros s k Hl; cbn [app length seq combine foldM snd].
      - rewrite Ew. reflexivity.
      - rewrite (Hl z (or_introl eq_refl)). cbn [bind unwrap]. apply IH. intros u Hu. apply Hl. right. exact Hu. }
    destruct c; [| |exfalso; apply Nc; reflexivity]; cbn [bind]; rewrite G by exact Hl; reflexivity.
Qed.
Example C61_ex : get_max_index (fun x y => Ok (Some (Nat.compare x y))) [2; 7; 1; 7; 3] = Ok 3 /\
  total_preorder Nat.compare.
Proof.
  split; [reflexivity|]. constructor.
  - intros x y. apply Nat.compare_antisym.
  - intros x y z. rewrite !Nat.compare_le_iff || (rewrite <- !Nat.compare_le_iff). lia.
Qed.

(** ** C11: consequence for sequences *)
Theorem C11_max_of_sequence : forall l : list (rat_impl Debug), l <> [] -> Forall (fwf rat_spec) l ->
  safe (get_max_index (fstab (rat_stab Debug)) l) (fun i => i < length l /\
    (den rat_spec (nth i l f0) = k0 -> Forall (fun x => den rat_spec x = k0) l)).
Proof. intros l. apply (max_index_stab rat_spec (rat_stab Debug) rat_stab_spec). Qed.
Example C11_seq_ex : get_max_index (fstab (rat_stab Debug)) [mkrat 0 1 : rat_impl Debug; mkrat 7 2; mkrat 0 1; mkrat 1 2; mkrat 5 1; mkrat 0 1] = Ok 3.
Proof. reflexivity. Qed.

Print Assumptions C59_digits.
Print Assumptions C59_digits_release.
Print Assumptions C59_base_one.
Print Assumptions C59_panics.
Print Assumptions C60_enumeration.
Print Assumptions C60_no_values.
Print Assumptions C60_overflow.
Print Assumptions C60_exponent_truncated.
Print Assumptions C61_last_maximum.
Print Assumptions C61_panics.
Print Assumptions C11_max_of_sequence.
