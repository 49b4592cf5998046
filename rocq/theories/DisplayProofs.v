(** * Proofs about the Display implementations. *)
From Verif Require Import Base BaseLemmas IntModel RatModel FieldIface IntProofs RatProofs MDegModel MonoSpec MDegProofs PolyModel DisplayModel.
Local Open Scope Z_scope.

(** ** Splitting strings *)
Definition nohead (P : Z -> bool) (v : chars) : Prop := match v with [] => True | c :: _ => P c = false end.
Lemma span_eq (P : Z -> bool) u u' v v' : forallb P u = true -> forallb P u' = true -> nohead P v -> nohead P v' ->
  u ++ v = u' ++ v' -> u = u' /\ v = v'.
Proof.
  revert u'. induction u as [|c u IH]; intros [|c' u'] Hu Hu' Hv Hv' E; cbn in *.
  - auto.
  - subst v. cbn in Hv. rewrite Hv in Hu'. discriminate.
  - subst v'. cbn in Hv'. rewrite Hv' in Hu. discriminate.
  - injection E as -> E. apply andb_true_iff in Hu, Hu'. destruct (IH u') as [-> ->]; tauto.
Qed.
Lemma forallb_impl (P Q : Z -> bool) l : (forall c, P c = true -> Q c = true) -> forallb P l = true -> forallb Q l = true.
Proof. rewrite !forallb_forall. auto. Qed.

(** ** Decimal strings *)
Definition is_digit (c : Z) : bool := (48 <=? c) && (c <=? 57).
Definition value_be (s : chars) : Z := fold_left (fun acc c => 10 * acc + (c - 48)) s 0.
Lemma value_be_snoc s d : value_be (s ++ [d]) = 10 * value_be s + (d - 48).
Proof. unfold value_be. rewrite fold_left_app. reflexivity. Qed.
Lemma dec_rec_ok f n : 0 <= n < 10 ^ Z.of_nat f ->
  value_be (dec_rec f n) = n /\ forallb is_digit (dec_rec f n) = true /\ (dec_rec f n <> [] \/ f = O).
Proof.
  revert n. induction f; intros n Hn.
  - cbn in *. split; [unfold value_be; cbn; lia|]. auto.
  - cbn [dec_rec]. rewrite Nat2Z.inj_succ, Z.pow_succ_r in Hn by lia.
    destruct (Z.ltb_spec n 10) as [L|L].
    + split; [unfold value_be; cbn [fold_left]; lia|]. split; [|left; discriminate].
      cbn [forallb]. unfold is_digit. rewrite andb_true_r. apply andb_true_iff. rewrite !Z.leb_le. lia.
    + pose proof (Z.mod_pos_bound n 10 ltac:(lia)). pose proof (Z_div_mod_eq_full n 10).
      destruct (IHf (n / 10)) as (V & D & _); [split; [apply Z.div_pos; lia|apply Z.div_lt_upper_bound; lia]|].
      split; [rewrite value_be_snoc, V; lia|]. split; [|left; destruct (dec_rec f (n / 10)); discriminate].
      rewrite forallb_app, D. cbn [forallb andb]. unfold is_digit. rewrite andb_true_r. apply andb_true_iff. rewrite !Z.leb_le. lia.
Qed.
Lemma dec_ok n : 0 <= n -> value_be (dec_string n) = n /\ forallb is_digit (dec_string n) = true /\ dec_string n <> [].
Proof.
  intros Hn. unfold dec_string. destruct (dec_rec_ok (S (Z.to_nat (Z.log2 n))) n) as (V & D & [N|N]); [|auto|discriminate].
  split; [exact Hn|]. rewrite Nat2Z.inj_succ, Z2Nat.id by apply Z.log2_nonneg.
  destruct (Z.eq_dec n 0) as [->|]; [reflexivity|].
  pose proof (Z.log2_spec n ltac:(lia)).
  apply Z.lt_le_trans with (2 ^ Z.succ (Z.log2 n)); [lia|]. apply Z.pow_le_mono_l. lia.
Qed.
Lemma dec_inj a b : 0 <= a -> 0 <= b -> dec_string a = dec_string b -> a = b.
Proof. intros Ha Hb E. rewrite <- (proj1 (dec_ok a Ha)), <- (proj1 (dec_ok b Hb)), E. reflexivity. Qed.

Global Arguments dec_string : simpl never.
Global Arguments dec_rec : simpl never.
Definition is_num (c : Z) : bool := is_digit c || (c =? 45).
Lemma digit_num c : is_digit c = true -> is_num c = true.
Proof. unfold is_num. intros ->. reflexivity. Qed.
Lemma int_display_num z : forallb is_num (int_display z) = true.
Proof.
  unfold int_display. destruct (Z.ltb_spec z 0); cbn [forallb]; rewrite ?andb_true_l;
    apply (forallb_impl is_digit); auto using digit_num; apply dec_ok; lia.
Qed.
Lemma int_display_inj a b : int_display a = int_display b -> a = b.
Proof.
  unfold int_display. intros E.
  destruct (Z.ltb_spec a 0), (Z.ltb_spec b 0).
  - injection E as E. apply dec_inj in E; lia.
  - pose proof (proj1 (proj2 (dec_ok b ltac:(lia)))) as D. rewrite <- E in D. discriminate.
  - pose proof (proj1 (proj2 (dec_ok a ltac:(lia)))) as D. rewrite E in D. discriminate.
  - apply dec_inj in E; lia.
Qed.
Lemma int_display_digit z : exists c, In c (int_display z) /\ is_digit c = true.
Proof.
  assert (G : forall n, 0 <= n -> exists c, In c (dec_string n) /\ is_digit c = true).
  { intros n Hn. destruct (dec_ok n Hn) as (_ & D & N). destruct (dec_string n) as [|c s]; [congruence|].
    exists c. apply andb_true_iff in D. split; [left; reflexivity|tauto]. }
  unfold int_display. destruct (Z.ltb_spec z 0); [|apply G; lia].
  destruct (G (- z) ltac:(lia)) as (c & H1 & H2). exists c. split; [right; exact H1|exact H2].
Qed.
Lemma int_display_sign z : nohead (fun c => c =? 45) (int_display z) <-> 0 <= z.
Proof.
  unfold int_display. destruct (Z.ltb_spec z 0).
  - cbn [nohead]. split; [discriminate|lia].
  - destruct (dec_ok z ltac:(lia)) as (_ & D & _). destruct (dec_string z) as [|c s]; [split; [lia|intros; exact I]|].
    cbn [forallb] in D. cbn [nohead]. apply andb_true_iff in D. destruct D as [D _]. split; [auto|]. intros _. unfold is_digit in D.
    apply andb_true_iff in D. rewrite !Z.leb_le in D. apply Z.eqb_neq. lia.
Qed.

(** ** Rationals *)
Lemma rat_display_form r : rat_wf r -> rat_display r =
  int_display (numer r) ++ (if denom r =? 1 then [] else 47 :: int_display (denom r)).
Proof.
  intros [Hd Hz]. unfold rat_display. destruct (Z.eqb_spec (numer r) 0) as [E|N].
  - rewrite E, (Hz E). reflexivity.
  - destruct (denom r =? 1); [rewrite app_nil_r|]; reflexivity.
Qed.
Lemma num_not_slash c : is_num c = true -> negb (c =? 47) = true.
Proof.
  unfold is_num, is_digit. rewrite orb_true_iff, andb_true_iff, !Z.leb_le, Z.eqb_eq, negb_true_iff, Z.eqb_neq. lia.
Qed.
Lemma rat_display_inj a b : rat_wf a -> rat_wf b -> rat_display a = rat_display b -> a = b.
Proof.
  intros Wa Wb E. rewrite !rat_display_form in E by assumption.
  apply (span_eq (fun c => negb (c =? 47))) in E.
  - destruct E as [E1 E2]. apply int_display_inj in E1. destruct a as [n d], b as [n' d']. cbn in *. subst n'. f_equal.
    destruct (Z.eqb_spec d 1), (Z.eqb_spec d' 1); try discriminate; [congruence|].
    injection E2 as E2. apply int_display_inj in E2. exact E2.
  - apply (forallb_impl is_num); [apply num_not_slash|apply int_display_num].
  - apply (forallb_impl is_num); [apply num_not_slash|apply int_display_num].
  - destruct (denom a =? 1); reflexivity.
  - destruct (denom b =? 1); reflexivity.
Qed.
(** characters of a coefficient *)
Definition is_coef (c : Z) : bool := is_num c || (c =? 47).
Lemma rat_display_coef r : rat_wf r -> forallb is_coef (rat_display r) = true.
Proof.
  intros W. rewrite rat_display_form by exact W. rewrite forallb_app.
  assert (G : forall z, forallb is_coef (int_display z) = true).
  { intros z. apply (forallb_impl is_num); [|apply int_display_num]. unfold is_coef. intros c ->. reflexivity. }
  rewrite G. destruct (denom r =? 1); [reflexivity|]. cbn [forallb]. rewrite G. reflexivity.
Qed.
Lemma rat_display_digit r : rat_wf r -> exists c, In c (rat_display r) /\ is_digit c = true.
Proof.
  intros W. rewrite rat_display_form by exact W. destruct (int_display_digit (numer r)) as (c & H1 & H2).
  exists c. split; [apply in_or_app; left; exact H1|exact H2].
Qed.

(** ** Superscripts *)
Definition sup (d : nat) : chars := map (fun c => superscript_digit (c - 48)) (dec_string (Z.of_nat d)).
Definition is_sup (c : Z) : bool := existsb (fun d => superscript_digit d =? c) [0;1;2;3;4;5;6;7;8;9].
Fixpoint chars_eqb (a b : chars) : bool :=
  match a, b with [], [] => true | x :: a', y :: b' => (x =? y) && chars_eqb a' b' | _, _ => false end.
Lemma chars_eqb_eq a b : chars_eqb a b = true -> a = b.
Proof.
  revert b; induction a as [|x a IH]; intros [|y b]; simpl; try discriminate; [reflexivity|].
  rewrite andb_true_iff, Z.eqb_eq. intros [-> H]. f_equal. auto.
Qed.
Lemma sup_sweep : forallb (fun d =>
    match superscript d with Ok s => chars_eqb s (sup d) && forallb is_sup s | _ => false end
    && ((Nat.eqb d 0) || match dec_string (Z.of_nat d) with c :: _ => negb (c =? 48) | [] => false end)) (seq 0 256) = true.
Proof. vm_compute. reflexivity. Qed.
Lemma superscript_ok d : (d <= 255)%nat -> superscript d = Ok (sup d) /\ forallb is_sup (sup d) = true /\
  (d <> 0%nat -> exists c s, dec_string (Z.of_nat d) = c :: s /\ c <> 48).
Proof.
  intros H. pose proof (proj1 (forallb_forall _ _) sup_sweep d) as S.
  specialize (S (proj2 (in_seq _ _ _) (conj (Nat.le_0_l _) (proj2 (Nat.lt_succ_r _ _) H)))). cbv beta in S.
  apply andb_true_iff in S. destruct S as [S1 S2]. destruct (superscript d) as [s| |]; try discriminate.
  apply andb_true_iff in S1. destruct S1 as [S1 S3]. apply chars_eqb_eq in S1. subst s. split; [reflexivity|]. split; [exact S3|].
  intros N. apply orb_true_iff in S2. destruct S2 as [S2|S2]; [apply Nat.eqb_eq in S2; congruence|].
  destruct (dec_string (Z.of_nat d)) as [|c s]; [discriminate|]. exists c, s. split; [reflexivity|].
  apply negb_true_iff, Z.eqb_neq in S2. exact S2.
Qed.
Lemma superscript_digit_inj a b : 0 <= a <= 9 -> 0 <= b <= 9 -> superscript_digit a = superscript_digit b -> a = b.
Proof.
  intros Ha Hb. assert (C : forall z, 0 <= z <= 9 -> z = 0 \/ z = 1 \/ z = 2 \/ z = 3 \/ z = 4 \/ z = 5 \/ z = 6 \/ z = 7 \/ z = 8 \/ z = 9) by lia.
  destruct (C a Ha) as [?|[?|[?|[?|[?|[?|[?|[?|[?|?]]]]]]]]]; subst a;
  destruct (C b Hb) as [?|[?|[?|[?|[?|[?|[?|[?|[?|?]]]]]]]]]; subst b; cbn; intros E; try reflexivity; discriminate E.
Qed.
Lemma map_sup_inj s s' : forallb is_digit s = true -> forallb is_digit s' = true ->
  map (fun c => superscript_digit (c - 48)) s = map (fun c => superscript_digit (c - 48)) s' -> s = s'.
Proof.
  revert s'. induction s as [|c s IH]; intros [|c' s'] D D' E; try discriminate; [reflexivity|].
  cbn in *. apply andb_true_iff in D, D'. destruct D as [D1 D2], D' as [D1' D2']. injection E as E1 E2.
  unfold is_digit in D1, D1'. rewrite andb_true_iff, !Z.leb_le in D1, D1'.
  apply superscript_digit_inj in E1; [|lia|lia]. f_equal; [lia|auto].
Qed.
Lemma sup_inj d d' : sup d = sup d' -> d = d'.
Proof.
  unfold sup. intros E. apply map_sup_inj in E; [|apply dec_ok; lia|apply dec_ok; lia]. apply dec_inj in E; lia.
Qed.

(** ** Multidegrees *)
Definition var_str (c : Z) (d : nat) : chars :=
  if Nat.eqb d 1 then [c] else if negb (Nat.eqb d 0) then c :: sup d else [].
Lemma write_var_ok v i c : u8s v -> write_var v i c = Ok (var_str c (expo v i)).
Proof.
  intros U. unfold write_var, var_str, expo. destruct (nth_error v i) as [d|] eqn:E.
  - rewrite (nth_error_nth _ _ _ E). apply nth_error_In in E. rewrite (proj1 (superscript_ok d ltac:(apply (proj1 (Forall_forall _ _) U); exact E))).
    destruct (Nat.eqb d 1), (Nat.eqb d 0); reflexivity.
  - apply nth_error_None in E. rewrite nth_overflow by exact E. reflexivity.
Qed.
Definition letters : list Z := [120; 121; 122; 117; 118].
Fixpoint letter_str (cs : list Z) (v : nat -> nat) : chars :=
  match cs with [] => [] | c :: cs' => var_str c (v 0%nat) ++ letter_str cs' (fun i => v (S i)) end.
Definition mdeg_str (v : mdeg) : chars :=
  if Nat.leb (length v) 5 then letter_str letters (expo v) else 88 :: vec_debug v.
Lemma mdeg_display_ok v : u8s v -> mdeg_display v = Ok (mdeg_str v).
Proof.
  intros U. unfold mdeg_display, mdeg_str, mdeg_len. destruct (Nat.leb_spec (length v) 5); [|reflexivity].
  rewrite !write_var_ok by exact U. cbn [bind letter_str letters].
  assert (E : expo v 5 = 0%nat) by (unfold expo; apply nth_overflow; exact H). rewrite E. reflexivity.
Qed.

Lemma var_str_nohead cs v : Forall (fun c => is_sup c = false) cs -> nohead is_sup (letter_str cs v).
Proof.
  revert v. induction cs as [|c cs IH]; intros v H; [exact I|]. inversion H; subst. cbn [letter_str]. unfold var_str.
  destruct (Nat.eqb (v 0%nat) 1); [assumption|]. destruct (Nat.eqb (v 0%nat) 0); [|assumption]. apply IH. assumption.
Qed.
Lemma sup_char c : In c letters \/ c = 119 \/ c = 88 -> is_sup c = false.
Proof. intros [H|[->| ->]]; [|reflexivity|reflexivity]. repeat (destruct H as [<-|H]; [reflexivity|]). destruct H. Qed.
Definition u8f (v : nat -> nat) : Prop := forall i, (v i <= 255)%nat.
Lemma letter_str_chars cs v c : u8f v -> In c (letter_str cs v) -> In c cs \/ is_sup c = true.
Proof.
  revert v. induction cs as [|x cs IH]; intros v U; cbn [letter_str]; [intros []|].
  rewrite in_app_iff. intros [H|H].
  - unfold var_str in H. destruct (Nat.eqb (v 0%nat) 1); [destruct H as [<-|[]]; left; left; reflexivity|].
    destruct (Nat.eqb (v 0%nat) 0); [destruct H|]. destruct H as [<-|H]; [left; left; reflexivity|].
    right. pose proof (proj1 (proj2 (superscript_ok (v 0%nat) (U 0%nat)))) as S. rewrite forallb_forall in S. auto.
  - destruct (IH (fun i => v (S i)) (fun i => U (S i)) H); [left; right; assumption|right; assumption].
Qed.
Lemma letter_str_inj cs v v' : NoDup cs -> Forall (fun c => is_sup c = false) cs -> u8f v -> u8f v' ->
  letter_str cs v = letter_str cs v' -> forall i, (i < length cs)%nat -> v i = v' i.
Proof.
  revert v v'. induction cs as [|c cs IH]; intros v v' ND NS U U' E; [intros i Hi; cbn in Hi; lia|].
  inversion ND; inversion NS; subst. cbn [letter_str] in E.
  assert (NI : forall w : nat -> nat, u8f w -> ~ In c (letter_str cs w)).
  { intros w Uw H. destruct (letter_str_chars cs w c Uw H) as [G|G]; [contradiction|congruence]. }
  assert (G : v 0%nat = v' 0%nat /\ letter_str cs (fun i => v (S i)) = letter_str cs (fun i => v' (S i))).
  { pose proof (NI (fun i => v (S i)) (fun i => U (S i))) as N1. pose proof (NI (fun i => v' (S i)) (fun i => U' (S i))) as N2.
    pose proof (var_str_nohead cs (fun i => v (S i)) ltac:(assumption)) as NH1.
    pose proof (var_str_nohead cs (fun i => v' (S i)) ltac:(assumption)) as NH2.
    (* the superscript part, empty for exponent one *)
    set (s := fun d : nat => if Nat.eqb d 1 then [] else sup d).
    assert (SS : forall d, (d <= 255)%nat -> forallb is_sup (s d) = true).
    { intros d Hd. unfold s. destruct (Nat.eqb d 1); [reflexivity|apply superscript_ok; exact Hd]. }
    assert (SI : forall d d', d <> 0%nat -> d' <> 0%nat -> s d = s d' -> d = d').
    { intros d d' Hd Hd' Es. unfold s in Es. destruct (Nat.eqb_spec d 1), (Nat.eqb_spec d' 1); try congruence.
      - exfalso. unfold sup in Es. destruct (dec_ok (Z.of_nat d') ltac:(lia)) as (_ & _ & N). destruct (dec_string (Z.of_nat d')); [congruence|discriminate].
      - exfalso. unfold sup in Es. destruct (dec_ok (Z.of_nat d) ltac:(lia)) as (_ & _ & N). destruct (dec_string (Z.of_nat d)); [congruence|discriminate].
      - apply sup_inj. exact Es. }
    assert (VS : forall d, d <> 0%nat -> var_str c d = c :: s d).
    { intros d Hd. unfold s, var_str. destruct (Nat.eqb_spec d 1); [reflexivity|]. destruct (Nat.eqb_spec d 0); [congruence|reflexivity]. }
    destruct (Nat.eq_dec (v 0%nat) 0) as [Z1|Z1], (Nat.eq_dec (v' 0%nat) 0) as [Z2|Z2].
    - rewrite Z1, Z2 in *. cbn in E. auto.
    - exfalso. rewrite Z1, (VS _ Z2) in E. cbn in E. apply N1. rewrite E. left. reflexivity.
    - exfalso. rewrite Z2, (VS _ Z1) in E. cbn in E. apply N2. rewrite <- E. left. reflexivity.
    - rewrite (VS _ Z1), (VS _ Z2) in E. cbn [app] in E. injection E as E.
      apply (span_eq is_sup) in E; [|apply SS; apply U|apply SS; apply U'|exact NH1|exact NH2].
      destruct E as [E1 E2]. split; [apply SI; assumption|exact E2]. }
  destruct G as [G1 G2]. intros [|i] Hi; [exact G1|]. cbn [length] in Hi.
  apply (IH (fun i => v (S i)) (fun i => v' (S i))); try assumption; try lia; intros j; [apply U|apply U'].
Qed.

(** the list format *)
Lemma join_inj (a b : list nat) t t' : nohead is_digit t -> nohead is_digit t' ->
  (forall s, t <> 44 :: s) -> (forall s, t' <> 44 :: s) ->
  join (map (fun d => dec_string (Z.of_nat d)) a) ++ t = join (map (fun d => dec_string (Z.of_nat d)) b) ++ t' ->
  (a = [] <-> b = []) -> a = b.
Proof.
  intros Ht Ht' Nt Nt'. revert b. induction a as [|x a IH]; intros [|y b] E EE.
  - reflexivity.
  - destruct EE as [EE _]. specialize (EE eq_refl). discriminate.
  - destruct EE as [_ EE]. specialize (EE eq_refl). discriminate.
  - cbn [map] in E.
    assert (J : forall z (l : list nat) t, join (dec_string (Z.of_nat z) :: map (fun d => dec_string (Z.of_nat d)) l) ++ t =
      dec_string (Z.of_nat z) ++ (match l with [] => t | _ => 44 :: 32 :: join (map (fun d => dec_string (Z.of_nat d)) l) ++ t end)).
    { intros z [|l0 l] t0; cbn [join map]; [reflexivity|]. rewrite <- app_assoc. reflexivity. }
    rewrite !J in E. apply (span_eq is_digit) in E; [|apply dec_ok; lia|apply dec_ok; lia| |].
    + destruct E as [E1 E2]. apply dec_inj in E1; [|lia|lia]. apply Nat2Z.inj in E1. subst y. f_equal.
      destruct a as [|a0 a], b as [|b0 b]; [reflexivity| | |].
      * exfalso. eapply Nt. exact E2.
      * exfalso. eapply Nt'. symmetry. exact E2.
      * apply IH; [injection E2 as E2; exact E2|split; discriminate].
    + destruct a; [exact Ht|reflexivity].
    + destruct b; [exact Ht'|reflexivity].
Qed.
Lemma mdeg_str_inj a b : canonical a -> canonical b -> u8s a -> u8s b -> mdeg_str a = mdeg_str b -> a = b.
Proof.
  intros Ca Cb Ua Ub. unfold mdeg_str. unfold u8s in *.
  assert (UE : forall l, Forall (fun x => (x <= 255)%nat) l -> u8f (expo l)).
  { intros l H i. unfold expo. destruct (Nat.lt_ge_cases i (length l)) as [L|L].
    - rewrite Forall_forall in H. apply H. apply nth_In. exact L.
    - rewrite nth_overflow by exact L. lia. }
  assert (NS : Forall (fun c => is_sup c = false) letters).
  { apply Forall_forall. intros c H. apply sup_char. left. exact H. }
  assert (N88 : forall l, u8f (expo l) -> forall s, letter_str letters (expo l) <> 88 :: s).
  { intros l U s E. assert (H : In 88 (letter_str letters (expo l))) by (rewrite E; left; reflexivity).
    apply letter_str_chars in H; [|exact U]. destruct H as [H|H]; [|discriminate].
    repeat (destruct H as [H|H]; [discriminate|]). destruct H. }
  destruct (Nat.leb_spec (length a) 5) as [La|La], (Nat.leb_spec (length b) 5) as [Lb|Lb]; intros E.
  - apply canonical_ext; try assumption. intros i. destruct (Nat.lt_ge_cases i 5) as [L|L].
    + apply (letter_str_inj letters (expo a) (expo b)); try assumption; auto.
      repeat constructor; cbn; intuition discriminate.
    + unfold expo. rewrite !nth_overflow by lia. reflexivity.
  - exfalso. eapply N88; [|exact E]. auto.
  - exfalso. eapply N88; [|symmetry; exact E]. auto.
  - injection E as E. apply (join_inj a b [93] [93]); try reflexivity; try (intros s; discriminate); [exact E|].
    split; intros ->; cbn in *; lia.
Qed.

(** ** Terms over the rationals *)
Definition pre_str (t : term (rat_impl Debug)) : chars :=
  match tdeg t with
  | [] => rat_display (coef t : rat)
  | _ => if rat_eqb (coef t : rat) (mkrat 1 1) then [] else if rat_eqb (coef t : rat) (mkrat (-1) 1) then [45] else rat_display (coef t : rat)
  end.
Definition as_debug {m} (t : term (rat_impl m)) : term (rat_impl Debug) := mkterm (F := rat_impl Debug) (coef t : rat) (tdeg t).
Definition term_str {m} (t : term (rat_impl m)) : chars := pre_str (as_debug t) ++ mdeg_str (tdeg t).
Lemma rat_term_display_ok m (t : term (rat_impl m)) : u8s (tdeg t) -> rat_term_display m t = Ok (term_str t).
Proof.
  intros U. unfold rat_term_display, term_display, term_str, pre_str. pose proof (mdeg_display_ok _ U) as E.
  destruct t as [c d]. cbn [coef tdeg as_debug] in *. destruct d as [|x d].
  - cbn [mdeg_is_zero]. rewrite app_nil_r. reflexivity.
  - cbn [mdeg_is_zero].
    change (feqb c f1) with (rat_eqb c (mkrat 1 1)).
    assert (N : @fneg (rat_impl m) f1 = Ok (mkrat (-1) 1)) by (destruct m; reflexivity).
    rewrite N. cbn [bind]. change (@feqb (rat_impl m) c (mkrat (-1) 1)) with (rat_eqb c (mkrat (-1) 1)).
    rewrite !E. destruct (rat_eqb c (mkrat 1 1)); [reflexivity|].
    destruct (rat_eqb c (mkrat (-1) 1)); reflexivity.
Qed.
Lemma letter_not_coef c : In c letters \/ c = 88 -> is_coef c = false.
Proof. intros [H| ->]; [|reflexivity]. repeat (destruct H as [<-|H]; [reflexivity|]). destruct H. Qed.
Lemma letter_str_nohead cs v : Forall (fun c => is_coef c = false) cs -> nohead is_coef (letter_str cs v).
Proof.
  revert v. induction cs as [|c cs IH]; intros v H; [exact I|]. inversion H; subst. cbn [letter_str]. unfold var_str.
  destruct (Nat.eqb (v 0%nat) 1); [assumption|]. destruct (Nat.eqb (v 0%nat) 0); [|assumption]. apply IH. assumption.
Qed.
Lemma mdeg_str_nohead v : nohead is_coef (mdeg_str v).
Proof.
  unfold mdeg_str. destruct (Nat.leb (length v) 5); [|reflexivity].
  apply letter_str_nohead. apply Forall_forall. intros c H. apply letter_not_coef. left. exact H.
Qed.
Lemma pre_str_coef (t : term (rat_impl Debug)) : rat_wf (coef t : rat) -> forallb is_coef (pre_str t) = true.
Proof.
  intros W. unfold pre_str. pose proof (rat_display_coef _ W). destruct (tdeg t); [assumption|].
  destruct (rat_eqb _ _); [reflexivity|]. destruct (rat_eqb _ _); [reflexivity|]. assumption.
Qed.
Lemma term_eta (t : term (rat_impl Debug)) : t = mkterm (coef t) (tdeg t).
Proof. destruct t; reflexivity. Qed.
Lemma term_str_inj m (t t' : term (rat_impl m)) : rat_wf (coef t : rat) -> rat_wf (coef t' : rat) -> mwf (tdeg t) -> mwf (tdeg t') ->
  term_str t = term_str t' -> t = t'.
Proof.
  intros W W' [C U] [C' U'] E. unfold term_str in E.
  apply (span_eq is_coef) in E; [|apply pre_str_coef; exact W|apply pre_str_coef; exact W'|apply mdeg_str_nohead|apply mdeg_str_nohead].
  destruct E as [E1 E2]. apply mdeg_str_inj in E2; try assumption.
  destruct t as [c d], t' as [c' d']. cbn [coef tdeg] in *. subst d'. f_equal.
  unfold pre_str in E1. cbn [coef tdeg as_debug] in E1. destruct d as [|x d]; [apply rat_display_inj; assumption|].
  destruct (rat_display_digit _ W) as (k & K1 & K2). destruct (rat_display_digit _ W') as (k' & K1' & K2').
  destruct (rat_eqb c (mkrat 1 1)) eqn:A1; [apply rat_eqb_eq in A1|]; (destruct (rat_eqb c' (mkrat 1 1)) eqn:A2; [apply rat_eqb_eq in A2|]).
  - congruence.
  - exfalso. destruct (rat_eqb c' (mkrat (-1) 1)); [discriminate|]. rewrite <- E1 in K1'. destruct K1'.
  - exfalso. destruct (rat_eqb c (mkrat (-1) 1)); [discriminate|]. rewrite E1 in K1. destruct K1.
  - destruct (rat_eqb c (mkrat (-1) 1)) eqn:A3; [apply rat_eqb_eq in A3|]; (destruct (rat_eqb c' (mkrat (-1) 1)) eqn:A4; [apply rat_eqb_eq in A4|]).
    + congruence.
    + exfalso. rewrite <- E1 in K1'. destruct K1' as [<-|[]]. discriminate.
    + exfalso. rewrite E1 in K1. destruct K1 as [<-|[]]. discriminate.
    + apply rat_display_inj; assumption.
Qed.

(** ** Polynomials: a space is followed by a digit inside a term *)
Fixpoint tame (l : chars) : bool :=
  match l with
  | [] => true
  | c :: r => (if c =? 32 then match r with d :: _ => is_digit d | [] => false end else true) && tame r
  end.
Lemma tame_app u v : tame u = true -> tame v = true -> tame (u ++ v) = true.
Proof.
  induction u as [|c u IH]; [auto|]. cbn. rewrite !andb_true_iff. intros [H1 H2] H3. split; [|auto].
  destruct (c =? 32); [|reflexivity]. destruct u; [discriminate|exact H1].
Qed.
Lemma tame_nospace u : (forall c, In c u -> c <> 32) -> tame u = true.
Proof.
  induction u as [|c u IH]; intros H; [reflexivity|]. cbn. destruct (Z.eqb_spec c 32) as [->|]; [exfalso; apply (H 32); [left; reflexivity|reflexivity]|].
  apply IH. intros d Hd. apply H. right. exact Hd.
Qed.
(** what may follow a term: nothing, or a separator *)
Definition sep (v : chars) : Prop := v = [] \/ exists s w, v = 32 :: s :: w /\ is_digit s = false.
Lemma tame_split u u' v v' : tame u = true -> tame u' = true -> sep v -> sep v' -> u ++ v = u' ++ v' -> u = u' /\ v = v'.
Proof.
  revert u'. induction u as [|c u IH]; intros [|c' u'] T T' Sv Sv' E.
  - auto.
  - exfalso. cbn [app] in E. destruct Sv as [->|(s & w & -> & D)]; [discriminate|]. injection E as E1 E2. subst c'.
    cbn in T'. destruct u' as [|d u']; [discriminate|]. cbn in E2. injection E2 as E2 _. subst d. rewrite D in T'. discriminate.
  - exfalso. cbn [app] in E. destruct Sv' as [->|(s & w & -> & D)]; [discriminate|]. injection E as E1 E2. subst c.
    cbn in T. destruct u as [|d u]; [discriminate|]. cbn in E2. injection E2 as E2 _. subst d. rewrite D in T. discriminate.
  - cbn [app] in E. injection E as -> E. cbn in T, T'. apply andb_true_iff in T, T'. destruct (IH u') as [-> ->]; tauto.
Qed.
Lemma dec_tame n : 0 <= n -> tame (dec_string n) = true.
Proof.
  intros H. apply tame_nospace. intros c Hc ->. destruct (dec_ok n H) as (_ & D & _).
  rewrite forallb_forall in D. specialize (D _ Hc). discriminate.
Qed.
Lemma join_tame l : tame (join (map (fun d => dec_string (Z.of_nat d)) l)) = true.
Proof.
  induction l as [|x l IH]; [reflexivity|]. destruct l as [|y l]; [apply dec_tame; lia|].
  cbn [map] in *. change (tame (dec_string (Z.of_nat x) ++ [44] ++ 32 :: join (dec_string (Z.of_nat y) :: map (fun d => dec_string (Z.of_nat d)) l)) = true).
  apply tame_app; [apply dec_tame; lia|]. apply tame_app; [reflexivity|].
  assert (H : exists c r, join (dec_string (Z.of_nat y) :: map (fun d => dec_string (Z.of_nat d)) l) = c :: r /\ is_digit c = true).
  { destruct (dec_ok (Z.of_nat y) ltac:(lia)) as (_ & D & N). destruct (dec_string (Z.of_nat y)) as [|c s]; [congruence|].
    apply andb_true_iff in D. destruct (map _ l); cbn [join]; eexists; eexists; (split; [reflexivity|tauto]). }
  destruct H as (c & r & E & D). rewrite E in *. cbn [tame]. cbn [tame] in IH. rewrite D. exact IH.
Qed.
Lemma mdeg_str_tame v : u8s v -> tame (mdeg_str v) = true.
Proof.
  intros U. unfold mdeg_str. destruct (Nat.leb (length v) 5).
  - apply tame_nospace. intros c H ->. apply letter_str_chars in H.
    + destruct H as [H|H]; [repeat (destruct H as [H|H]; [discriminate|]); destruct H|discriminate].
    + intros i. apply u8_expo. exact U.
  - change (tame ([88; 91] ++ join (map (fun d => dec_string (Z.of_nat d)) v) ++ [93]) = true).
    apply tame_app; [reflexivity|]. apply tame_app; [apply join_tame|reflexivity].
Qed.
Lemma term_str_tame m (t : term (rat_impl m)) : rat_wf (coef t : rat) -> u8s (tdeg t) -> tame (term_str t) = true.
Proof.
  intros W U. unfold term_str. apply tame_app; [|apply mdeg_str_tame; exact U].
  apply tame_nospace. intros c H ->. pose proof (pre_str_coef (as_debug t) W) as P. rewrite forallb_forall in P.
  specialize (P _ H). discriminate.
Qed.

Definition rat_ok (r : rat) : Prop := rat_wf r /\ in64 (numer r).
Definition tgood {m} (t : term (rat_impl m)) : Prop := rat_ok (coef t : rat) /\ mwf (tdeg t).
Lemma rat_neg_ok m r s : rat_ok r -> rat_neg m r = Ok s -> rat_ok s /\ (numer s = - numer r \/ numer s = numer r /\ numer r = i64_min) /\ denom s = denom r.
Proof.
  intros [[W1 W2] R] E. unfold rat_neg, int_neg in E.
  destruct (Z.eq_dec (numer r) i64_min) as [M|M].
  - unfold in64 in R. destruct m; [cbn in E; unfold chk64 in E; rewrite M in E; discriminate|].
    unfold chk64 in E. rewrite M in E. change (in64b (- i64_min)) with false in E. cbv iota in E. cbn [bind] in E.
    change (wrap64 (- i64_min)) with i64_min in E. injection E as <-. cbn. rewrite M in W2. repeat split; auto; cbn; try lia.
  - rewrite chk64_in in E by (unfold in64, i64_min, i64_max in *; lia). injection E as <-. cbn. split; [|auto].
    split; [split; [exact W1|cbn; intros H; apply W2; lia]|]. cbn. unfold in64, i64_min, i64_max in *; lia.
Qed.
Lemma rat_neg_inj m r r' s : rat_ok r -> rat_ok r' -> numer r < 0 -> numer r' < 0 -> rat_neg m r = Ok s -> rat_neg m r' = Ok s -> r = r'.
Proof.
  intros H H' N N' E E'. apply rat_neg_ok in E; [|exact H]. apply rat_neg_ok in E'; [|exact H'].
  destruct r as [n d], r' as [n' d'], H as [_ R], H' as [_ R']. cbn in *. destruct E as (_ & E1 & E2), E' as (_ & E1' & E2').
  unfold in64, i64_min, i64_max in *. f_equal; lia.
Qed.

(** the separator and the magnitude of a non-leading term *)
Definition tail_step (m : mode) (acc : chars) (t : term (rat_impl m)) : res chars :=
  if int_is_neg (numer (coef t : rat)) then
    c <- rat_neg m (coef t) ;;
    s <- rat_term_display m (mkterm (c : rat_impl m) (tdeg t)) ;;
    Ok (acc ++ 32 :: 45 :: 32 :: s)
  else
    s <- rat_term_display m t ;;
    Ok (acc ++ 32 :: 43 :: 32 :: s).
Lemma tail_step_spec m acc (t : term (rat_impl m)) r : tgood t -> tail_step m acc t = Ok r ->
  exists sg t', tgood t' /\ r = acc ++ 32 :: sg :: 32 :: term_str t' /\
    (sg = 45 /\ numer (coef t : rat) < 0 /\ rat_neg m (coef t) = Ok (coef t' : rat) /\ tdeg t' = tdeg t \/
     sg = 43 /\ t' = t).
Proof.
  intros [R [C U]] E. unfold tail_step, int_is_neg in E. destruct (Z.ltb_spec (numer (coef t : rat)) 0) as [L|L].
  - destruct (rat_neg m (coef t)) as [c| |] eqn:EN; try discriminate. cbn [bind] in E.
    rewrite rat_term_display_ok in E by exact U. cbn [bind] in E. injection E as <-.
    exists 45, (mkterm (F := rat_impl m) c (tdeg t)). split; [|split; [reflexivity|left; auto]].
    split; [|split; assumption]. cbn. apply rat_neg_ok in EN; [apply EN|exact R].
  - rewrite rat_term_display_ok in E by exact U. cbn [bind] in E. injection E as <-.
    exists 43, t. split; [split; [exact R|split; assumption]|]. split; [reflexivity|]. right. auto.
Qed.
Lemma tail_spec m (l : list (term (rat_impl m))) : Forall tgood l -> forall acc r, foldM (tail_step m) l acc = Ok r ->
  exists v, r = acc ++ v /\ sep v /\ (forall acc', foldM (tail_step m) l acc' = Ok (acc' ++ v)).
Proof.
  induction 1 as [|t l H _ IH]; intros acc r E; cbn [foldM] in E.
  - injection E as <-. exists []. rewrite app_nil_r. split; [reflexivity|]. split; [left; reflexivity|]. intros a. rewrite app_nil_r. reflexivity.
  - destruct (tail_step m acc t) as [a| |] eqn:E1; try discriminate. cbn [bind] in E.
    destruct (tail_step_spec m acc t a H E1) as (sg & t' & G & -> & S).
    destruct (IH _ _ E) as (v & -> & _ & V). exists (32 :: sg :: 32 :: term_str t' ++ v).
    split; [rewrite <- app_assoc; reflexivity|]. split; [right; exists sg, (32 :: term_str t' ++ v); split; [reflexivity|]; destruct S as [[-> _]|[-> _]]; reflexivity|].
    intros a. cbn [foldM]. assert (E2 : tail_step m a t = Ok (a ++ 32 :: sg :: 32 :: term_str t')).
    { clear - E1 S H G. destruct G as [_ [_ U]]. unfold tail_step, int_is_neg in *. destruct S as [(-> & L & N & D)|(-> & ->)].
      - apply Z.ltb_lt in L. rewrite L in *. rewrite N in *. cbn [bind] in *.
        rewrite <- D. assert (X : mkterm (F := rat_impl m) (coef t' : rat) (tdeg t') = t') by (destruct t'; reflexivity).
        rewrite X. rewrite rat_term_display_ok by exact U. reflexivity.
      - destruct (numer (coef t : rat) <? 0).
        + exfalso. destruct (rat_neg m (coef t)) as [c| |]; try discriminate. cbn [bind] in E1.
          destruct (rat_term_display m _); try discriminate. cbn [bind] in E1. injection E1 as E1.
          apply app_inv_head in E1. discriminate.
        + rewrite rat_term_display_ok by exact U. reflexivity. }
    rewrite E2. cbn [bind]. rewrite V. f_equal. rewrite <- app_assoc. reflexivity.
Qed.
Lemma tail_inj m (l l' : list (term (rat_impl m))) : Forall tgood l -> Forall tgood l' -> forall v,
  foldM (tail_step m) l [] = Ok v -> foldM (tail_step m) l' [] = Ok v -> l = l'.
Proof.
  intros H; revert l'. induction H as [|t l Ht Hl IH]; intros l' H' v E E'.
  - destruct l' as [|t' l']; [reflexivity|]. exfalso. cbn in E. injection E as <-. cbn [foldM] in E'.
    inversion H'; subst. destruct (tail_step m [] t') as [a| |] eqn:E1; try discriminate. cbn [bind] in E'.
    destruct (tail_step_spec m [] t' a ltac:(assumption) E1) as (sg & t2 & G & -> & S).
    destruct (tail_spec m l' ltac:(assumption) _ _ E') as (v & X & _). discriminate.
  - destruct l' as [|t' l'].
    + exfalso. cbn in E'. injection E' as <-. cbn [foldM] in E.
      destruct (tail_step m [] t) as [a| |] eqn:E1; try discriminate. cbn [bind] in E.
      destruct (tail_step_spec m [] t a Ht E1) as (sg & t2 & G & -> & S).
      destruct (tail_spec m l Hl _ _ E) as (v & X & _). discriminate.
    + inversion H'; subst. cbn [foldM] in E, E'.
      destruct (tail_step m [] t) as [a| |] eqn:E1; try discriminate. cbn [bind] in E.
      destruct (tail_step m [] t') as [a'| |] eqn:E1'; try discriminate. cbn [bind] in E'.
      destruct (tail_step_spec m [] t a Ht E1) as (sg & t2 & G & -> & S).
      destruct (tail_step_spec m [] t' a' ltac:(assumption) E1') as (sg' & t2' & G' & -> & S').
      destruct (tail_spec m l Hl _ _ E) as (w & X & SW & W).
      destruct (tail_spec m l' ltac:(assumption) _ _ E') as (w' & X' & SW' & W').
      rewrite X in X'. cbn [app] in X'. injection X' as Xs X'. subst sg'.
      apply tame_split in X'; [|apply term_str_tame; [apply G|apply G]|apply term_str_tame; [apply G'|apply G']|exact SW|exact SW'].
      destruct X' as [X1 X2]. subst w'. apply term_str_inj in X1; [|apply G|apply G'|apply G|apply G']. subst t2'.
      f_equal.
      * destruct S as [(-> & L & N & D)|(-> & ->)], S' as [(Q & L' & N' & D')|(Q & E2)]; try discriminate; [|congruence].
        destruct t as [c d], t' as [c' d']. cbn [coef tdeg] in *. subst. f_equal.
        apply (rat_neg_inj m c c' _ (proj1 Ht) ltac:(match goal with H : tgood (mkterm c' _) |- _ => exact (proj1 H) end) L L' N N').
      * apply (IH l' ltac:(assumption) w); [apply W|apply W'].
Qed.
Lemma poly_display_cons m (t : term (rat_impl m)) l : u8s (tdeg t) -> poly_display m (t :: l) = foldM (tail_step m) l (term_str t).
Proof. intros U. unfold poly_display. rewrite rat_term_display_ok by exact U. reflexivity. Qed.
Lemma poly_display_inj m (p q : poly (rat_impl m)) s :
  Forall (fun t => tgood t /\ numer (coef t : rat) <> 0) p -> Forall (fun t => tgood t /\ numer (coef t : rat) <> 0) q ->
  poly_display m p = Ok s -> poly_display m q = Ok s -> p = q.
Proof.
  assert (FG : forall l : list (term (rat_impl m)), Forall (fun t => tgood t /\ numer (coef t : rat) <> 0) l -> Forall tgood l).
  { intros l. apply Forall_impl. intros t [H _]. exact H. }
  assert (NZ : forall (t : term (rat_impl m)) l, tgood t -> numer (coef t : rat) <> 0 -> Forall tgood l ->
     poly_display m (t :: l) = Ok [48] -> False).
  { intros t l G N Hl E. rewrite poly_display_cons in E by apply G.
    destruct (tail_spec m l Hl _ _ E) as (v & X & SV & _).
    change ([48] ++ [] = term_str t ++ v) in X. destruct (tame_split [48] (term_str t) [] v eq_refl (term_str_tame m t (proj1 (proj1 G)) (proj2 (proj2 G))) (or_introl eq_refl) SV X) as [X1 _].
    clear X; rename X1 into X.
    change [48] with (term_str (m := m) (mkterm (F := rat_impl m) (mkrat 0 1) [])) in X.
    assert (W0 : rat_wf (mkrat 0 1)) by (split; [reflexivity|reflexivity]).
    assert (M0 : mwf []) by (split; [discriminate|constructor]).
    apply (term_str_inj m (mkterm (F := rat_impl m) (mkrat 0 1) []) t W0 (proj1 (proj1 G)) M0 (proj2 G)) in X.
    subst t. apply N. reflexivity. }
  intros Hp Hq Ep Eq. destruct p as [|t p], q as [|t' q].
  - reflexivity.
  - exfalso. injection Ep as <-. inversion Hq as [|? ? [G N] Hq']; subst. exact (NZ t' q G N (FG _ Hq') Eq).
  - exfalso. injection Eq as <-. inversion Hp as [|? ? [G N] Hp']; subst. exact (NZ t p G N (FG _ Hp') Ep).
  - inversion Hp as [|? ? [G N] Hp']; inversion Hq as [|? ? [G' N'] Hq']; subst.
    rewrite poly_display_cons in Ep by apply G. rewrite poly_display_cons in Eq by apply G'.
    destruct (tail_spec m p (FG _ Hp') _ _ Ep) as (v & X & SV & V).
    destruct (tail_spec m q (FG _ Hq') _ _ Eq) as (v' & X' & SV' & V').
    rewrite X in X'. apply tame_split in X'; [|apply term_str_tame; apply G|apply term_str_tame; apply G'|exact SV|exact SV'].
    destruct X' as [X1 X2]. subst v'. apply term_str_inj in X1; [|apply G|apply G'|apply G|apply G']. subst t'. f_equal.
    apply (tail_inj m p q (FG _ Hp') (FG _ Hq') v); [apply V|apply V'].
Qed.
(** when Display panics *)
Lemma poly_display_defined (p : poly (rat_impl Debug)) : Forall tgood p ->
  (exists s, poly_display Debug p = Ok s) \/
  poly_display Debug p = Panic Overflow /\ Exists (fun t : term (rat_impl Debug) => numer (coef t : rat) = i64_min) (tl p).
Proof.
  intros H. destruct p as [|t p]; [left; eexists; reflexivity|]. inversion H as [|? ? G Hp]; subst.
  rewrite poly_display_cons by apply G. cbn [tl]. generalize (term_str t). clear - Hp.
  induction Hp as [|t l G Hl IH]; intros acc; [left; eexists; reflexivity|]. cbn [foldM].
  destruct G as [[W R] [C U]]. unfold tail_step at 1 3, int_is_neg.
  destruct (numer (coef t : rat) <? 0) eqn:L.
  - unfold rat_neg, int_neg. unfold chk64. destruct (in64b (- numer (coef t : rat))) eqn:I64.
    + cbn [bind]. rewrite rat_term_display_ok by exact U. cbn [bind]. destruct (IH (acc ++ 32 :: 45 :: 32 :: term_str (mkterm (F := rat_impl Debug) (mkrat (- numer (coef t : rat)) (denom (coef t : rat))) (tdeg t)))) as [D|[D E]]; [left; exact D|right; split; [exact D|right; exact E]].
    + right. split; [reflexivity|]. left. unfold in64b in I64. apply andb_false_iff in I64. rewrite !Z.leb_gt in I64. unfold in64, i64_min, i64_max in *. lia.
  - rewrite rat_term_display_ok by exact U. cbn [bind]. destruct (IH (acc ++ 32 :: 43 :: 32 :: term_str t)) as [D|[D E]]; [left; exact D|right; split; [exact D|right; exact E]].
Qed.
Lemma poly_display_panics (p : poly (rat_impl Debug)) : Forall tgood p ->
  Exists (fun t : term (rat_impl Debug) => numer (coef t : rat) = i64_min) (tl p) -> poly_display Debug p = Panic Overflow.
Proof.
  intros H E. destruct (poly_display_defined p H) as [[s D]|[D _]]; [|exact D]. exfalso.
  destruct p as [|t p]; [inversion E|]. inversion H as [|? ? G Hp]; subst. cbn [tl] in E.
  rewrite poly_display_cons in D by apply G. revert D. generalize (term_str t). clear - Hp E.
  induction E as [t l M|t l E IH]; intros acc D; inversion Hp as [|? ? G Hl]; subst; cbn [foldM] in D.
  - unfold tail_step at 1, int_is_neg in D. rewrite M in D. change (i64_min <? 0) with true in D. cbv iota in D.
    unfold rat_neg in D. rewrite M in D. discriminate.
  - destruct (tail_step Debug acc t) as [a| |]; try discriminate. cbn [bind] in D. exact (IH Hl a D).
Qed.
