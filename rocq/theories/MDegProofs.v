(** * The multidegree operations compute the monomial operations of MonoSpec. *)
From Verif Require Import Base BaseLemmas MDegModel MonoSpec.

Definition u8s (l : list nat) : Prop := Forall (fun x => x <= 255) l.
(** what the crate maintains for a multidegree *)
Definition mwf (a : mdeg) : Prop := canonical a /\ u8s a.

Lemma mwf_nil : mwf [].
Proof. split; [discriminate|constructor]. Qed.

Lemma mdeg_eqb_eq a : forall b, mdeg_eqb a b = true <-> a = b.
Proof.
  induction a as [|x a IH]; intros [|y b]; simpl; try (split; congruence).
  rewrite andb_true_iff, Nat.eqb_eq, IH. split; [intros [-> ->]; reflexivity|intros [= -> ->]; auto].
Qed.

Lemma u8_expo a i : u8s a -> expo a i <= 255.
Proof.
  intros H. unfold expo. destruct (nth_in_or_default i a 0) as [I|E]; [|lia].
  unfold u8s in H. rewrite Forall_forall in H. apply H. exact I.
Qed.
Lemma expo_u8 a : (forall i, expo a i <= 255) -> u8s a.
Proof.
  intros H. apply Forall_forall. intros x I. apply (In_nth _ _ 0) in I as (i & _ & <-). apply H.
Qed.

(** ** trimming *)
Definition nzb (d : nat) : bool := negb (d =? 0).

Lemma rpos_ltrim v : match rposition nzb v with
                     | Some i => firstn (i + 1) v = ltrim v /\ ltrim v <> []
                     | None => ltrim v = [] end.
Proof.
  induction v as [|x v IH]; simpl; [reflexivity|].
  destruct (rposition nzb v) as [i|].
  - destruct IH as [E N]. simpl. rewrite E. destruct (ltrim v); [contradiction|]. split; [reflexivity|discriminate].
  - rewrite IH. unfold nzb. destruct (x =? 0); simpl; auto. split; [reflexivity|discriminate].
Qed.

Lemma from_vec_ltrim v : mdeg_from_vec v = ltrim v.
Proof.
  unfold mdeg_from_vec. change (fun d => negb (d =? 0)) with nzb.
  pose proof (rpos_ltrim v). destruct (rposition nzb v); [apply H|]. symmetry. exact H.
Qed.

Lemma ltrim_nil_iff v : ltrim v = [] <-> Forall (fun x => x = 0) v.
Proof.
  induction v as [|x v IH]; simpl; [split; auto|]. destruct (ltrim v) as [|y t].
  - destruct (Nat.eqb_spec x 0); split; intros H; try discriminate; try reflexivity.
    + constructor; auto. apply IH. reflexivity.
    + inversion H; subst; contradiction.
  - split; [discriminate|]. intros H. inversion H; subst. apply IH in H3. discriminate.
Qed.

Lemma trim_zeros_cases v :
  (Forall (fun x => x = 0) v /\ mdeg_trim_zeros v = v) \/
  (~ Forall (fun x => x = 0) v /\ mdeg_trim_zeros v = ltrim v).
Proof.
  unfold mdeg_trim_zeros. change (fun d => negb (d =? 0)) with nzb.
  pose proof (rpos_ltrim v) as H. destruct (rposition nzb v).
  - right. destruct H as [E N]. split; [|exact E]. intros F. apply ltrim_nil_iff in F. contradiction.
  - left. split; [apply ltrim_nil_iff; exact H|reflexivity].
Qed.

Lemma ltrim_u8 v : u8s v -> u8s (ltrim v).
Proof. intros H. apply expo_u8. intros i. rewrite ltrim_expo. apply u8_expo. exact H. Qed.

Lemma from_vec_wf v : u8s v -> mwf (mdeg_from_vec v).
Proof. intros H. rewrite from_vec_ltrim. split; [apply ltrim_canonical|apply ltrim_u8; exact H]. Qed.

(** ** var *)
Lemma mdeg_var_canonical i k : canonical (mdeg_var i k).
Proof.
  unfold mdeg_var. destruct (Nat.eqb_spec k 0); [discriminate|].
  unfold canonical. rewrite last_last. exact n.
Qed.
Lemma mdeg_var_expo i k j : expo (mdeg_var i k) j = if j =? i then k else 0.
Proof.
  unfold mdeg_var. destruct (Nat.eqb_spec k 0) as [->|N].
  - rewrite expo_nil. destruct (j =? i); reflexivity.
  - unfold expo. destruct (Nat.eqb_spec j i) as [->|Nj].
    + rewrite app_nth2; rewrite repeat_length; [|lia]. rewrite Nat.sub_diag. reflexivity.
    + destruct (Nat.lt_ge_cases j i) as [L|G].
      * rewrite app_nth1 by (rewrite repeat_length; exact L). apply nth_repeat.
      * apply nth_overflow. rewrite app_length, repeat_length. simpl. lia.
Qed.
Lemma mdeg_var_wf i k : k <= 255 -> mwf (mdeg_var i k).
Proof.
  intros H. split; [apply mdeg_var_canonical|]. apply expo_u8. intros j. rewrite mdeg_var_expo.
  destruct (j =? i); lia.
Qed.

(** ** addition *)
Definition eb_add (p : either_or_both nat) : nat :=
  match p with Both a b => a + b | Left a => a | Right b => b end.

Lemma zip_longest_map (f : either_or_both nat -> nat) (g : nat -> nat -> nat) :
  (forall a b, f (Both a b) = g a b) -> (forall a, f (Left a) = g a 0) -> (forall b, f (Right b) = g 0 b) ->
  forall a b, map f (zip_longest a b) = lzip g a b.
Proof.
  intros H1 H2 H3. induction a as [|x a IH]; intros b; simpl.
  - rewrite map_map. apply map_ext. exact H3.
  - destruct b as [|y b]; simpl; [rewrite H2|rewrite H1]; rewrite IH; reflexivity.
Qed.

Definition catchup (zc : nat) (t : list nat) : list nat :=
  match t with [] => [] | _ => repeat 0 zc ++ t end.

Lemma repeat_snoc {A} (x : A) n l : repeat x (n + 1) ++ l = repeat x n ++ x :: l.
Proof. rewrite repeat_app, <- app_assoc. reflexivity. Qed.

Lemma catchup_zero zc v : catchup (zc + 1) (ltrim v) = catchup zc (ltrim (0 :: v)).
Proof. simpl. destruct (ltrim v); simpl; [reflexivity|]. apply repeat_snoc. Qed.

Lemma ltrim_nz x v : x <> 0 -> ltrim (x :: v) = x :: ltrim v.
Proof. intros N. simpl. destruct (ltrim v); auto. destruct (Nat.eqb_spec x 0); [contradiction|reflexivity]. Qed.

Lemma catchup_nz x v zc degs : x <> 0 ->
  degs ++ catchup zc (ltrim (x :: v)) = (degs ++ repeat 0 zc ++ [x]) ++ catchup 0 (ltrim v).
Proof.
  intros N. rewrite ltrim_nz by exact N. simpl. rewrite <- !app_assoc. simpl.
  destruct (ltrim v); reflexivity.
Qed.

Lemma catchup_zero_nn v zc degs : ltrim v <> [] ->
  degs ++ catchup zc (ltrim (0 :: v)) = (degs ++ repeat 0 zc ++ [0]) ++ catchup 0 (ltrim v).
Proof.
  intros N. simpl. destruct (ltrim v); [contradiction|]. simpl. rewrite <- !app_assoc. reflexivity.
Qed.

Definition sums_fit (ps : list (either_or_both nat)) : bool := forallb (fun x => x <=? 255) (map eb_add ps).

Lemma mdeg_add_loop_debug ps : forall degs zc,
  Forall (fun p => match p with Both _ _ => True | Left a => a <= 255 | Right b => b <= 255 end) ps ->
  mdeg_add_loop Debug ps degs zc =
    if sums_fit ps then Ok (degs ++ catchup zc (ltrim (map eb_add ps))) else Panic Overflow.
Proof.
  induction ps as [|p ps IH]; intros degs zc H.
  - simpl. rewrite app_nil_r. reflexivity.
  - inversion H as [|? ? Hp Hps]; subst.
    assert (Z : forall q, eb_add q = 0 -> mdeg_add_loop Debug ps degs (zc + 1) =
       (if sums_fit (q :: ps) then Ok (degs ++ catchup zc (ltrim (map eb_add (q :: ps)))) else Panic Overflow)).
    { intros q Eq. rewrite IH by exact Hps. unfold sums_fit. simpl map. simpl forallb. rewrite Eq. simpl (0 <=? 255).
      rewrite catchup_zero. reflexivity. }
    assert (N : forall q, eb_add q <> 0 -> eb_add q <= 255 -> mdeg_add_loop Debug ps (degs ++ repeat 0 zc ++ [eb_add q]) 0 =
       (if sums_fit (q :: ps) then Ok (degs ++ catchup zc (ltrim (map eb_add (q :: ps)))) else Panic Overflow)).
    { intros q Eq L. rewrite IH by exact Hps. unfold sums_fit. simpl map. simpl forallb.
      apply Nat.leb_le in L. rewrite L. simpl andb.
      rewrite (catchup_nz (eb_add q)) by exact Eq. reflexivity. }
    assert (B : forall a b, a + b <> 0 -> 
       (c <- u8_add Debug a b ;; mdeg_add_loop Debug ps (degs ++ repeat 0 zc ++ [c]) 0) =
       (if sums_fit (Both a b :: ps) then Ok (degs ++ catchup zc (ltrim (map eb_add (Both a b :: ps)))) else Panic Overflow)).
    { intros a b Nab. unfold u8_add. destruct (Nat.leb_spec (a + b) 255) as [L|G].
      - apply (N (Both a b)); assumption.
      - unfold sums_fit. simpl map. simpl forallb. assert (a + b <=? 255 = false) as -> by (apply Nat.leb_gt; exact G).
        reflexivity. }
    destruct p as [[|a] [|b]|[|a]|[|b]].
    + exact (Z (Both 0 0) eq_refl).
    + exact (B 0 (S b) ltac:(lia)).
    + exact (B (S a) 0 ltac:(lia)).
    + exact (B (S a) (S b) ltac:(lia)).
    + exact (Z (Left 0) eq_refl).
    + exact (N (Left (S a)) ltac:(simpl; lia) Hp).
    + exact (Z (Right 0) eq_refl).
    + exact (N (Right (S b)) ltac:(simpl; lia) Hp).
Qed.

Lemma zip_longest_u8 a : forall b, u8s a -> u8s b ->
  Forall (fun p => match p with Both _ _ => True | Left a => a <= 255 | Right b => b <= 255 end) (zip_longest a b).
Proof.
  induction a as [|x a IH]; intros b Ha Hb; simpl.
  - induction Hb; simpl; constructor; auto.
  - inversion Ha as [|? ? Hx Ha']; subst. destruct b as [|y b]; constructor.
    + exact Hx.
    + apply IH; assumption.
    + exact I.
    + inversion Hb as [|? ? Hy Hb']; subst. apply IH; assumption.
Qed.

Lemma mdeg_add_debug a b : u8s a -> u8s b ->
  mdeg_add Debug a b =
    if forallb (fun x => x <=? 255) (lzip Nat.add a b) then Ok (ltrim (lzip Nat.add a b)) else Panic Overflow.
Proof.
  intros Ha Hb. unfold mdeg_add. rewrite mdeg_add_loop_debug by (apply zip_longest_u8; assumption).
  unfold sums_fit. rewrite (zip_longest_map eb_add Nat.add); simpl; auto.
  destruct (forallb _ _); auto. unfold catchup. destruct (ltrim _); reflexivity.
Qed.

Lemma forallb_u8 l : forallb (fun x => x <=? 255) l = true <-> u8s l.
Proof. unfold u8s. rewrite forallb_forall, Forall_forall. split; intros H x I; apply Nat.leb_le; auto. Qed.

Lemma mdeg_add_safe a b : u8s a -> u8s b ->
  safe (mdeg_add Debug a b) (fun c => mwf c /\ canon c = mmul (canon a) (canon b)).
Proof.
  intros Ha Hb. rewrite mdeg_add_debug by assumption.
  destruct (forallb _ _) eqn:E; simpl; auto. apply forallb_u8 in E.
  split; [split; [apply ltrim_canonical|apply ltrim_u8; exact E]|].
  apply mono_ext. intros i. rewrite mmul_exp, !canon_exp, ltrim_expo, lzip_expo by reflexivity. reflexivity.
Qed.

(** ** is_succ *)
Lemma zip_le_spec a : forall b, length a <= length b ->
  (mdeg_zip_le a b = true <-> forall i, expo a i <= expo b i).
Proof.
  induction a as [|x a IH]; intros b L.
  - simpl. split; [|reflexivity]. intros _ i. rewrite expo_nil. lia.
  - destruct b as [|y b]; simpl in L; [lia|]. simpl.
    destruct (Nat.ltb_spec y x) as [H|H].
    + split; [discriminate|]. intros E. specialize (E 0). unfold expo in E; simpl in E. lia.
    + rewrite IH by lia. split.
      * intros E [|i]; [exact H|]. apply E.
      * intros E i. exact (E (S i)).
Qed.

Lemma is_succ_expo a b : canonical a ->
  (mdeg_is_succ a b = true <-> forall i, expo a i <= expo b i).
Proof.
  intros Ca. unfold mdeg_is_succ, mdeg_len. destruct (Nat.ltb_spec (length b) (length a)) as [L|L].
  - split; [discriminate|]. intros E. exfalso.
    assert (N : a <> []) by (destruct a; simpl in *; [lia|discriminate]).
    pose proof (canonical_last a Ca N) as X. specialize (E (length a - 1)).
    rewrite (expo_over b) in E by lia. lia.
  - apply zip_le_spec. exact L.
Qed.

Lemma mdiv_canon a b : mdiv (canon a) (canon b) <-> forall i, expo a i <= expo b i.
Proof.
  unfold mdiv. split; intros H i; specialize (H i); rewrite !canon_exp in *; exact H.
Qed.

Lemma is_succ_spec a b : canonical a -> (mdeg_is_succ a b = true <-> mdiv (canon a) (canon b)).
Proof. intros Ca. rewrite mdiv_canon. apply is_succ_expo. exact Ca. Qed.

(** ** checked_sub *)
Definition eb_sub (p : either_or_both nat) : nat :=
  match p with Both a b => a - b | Left a => a | Right b => 0 end.
Definition eb_ge (p : either_or_both nat) : bool :=
  match p with Both a b => b <=? a | Left a => true | Right b => false end.

(** the list does not end in [Left 0] *)
Definition left_ok (ps : list (either_or_both nat)) : Prop :=
  forall qs, ps <> qs ++ [Left 0].

Lemma left_ok_tail p ps : left_ok (p :: ps) -> left_ok ps.
Proof. intros H qs E. apply (H (p :: qs)). rewrite E. reflexivity. Qed.

Inductive all_left : list (either_or_both nat) -> Prop :=
| al_nil : all_left []
| al_cons a ps : all_left ps -> all_left (Left a :: ps).

(** once [Left] appears only [Left]s follow *)
Inductive shaped : list (either_or_both nat) -> Prop :=
| sh_left ps : all_left ps -> shaped ps
| sh_right ps : (forall p, In p ps -> exists b, p = Right b) -> shaped ps
| sh_both a b ps : shaped ps -> shaped (Both a b :: ps).

Lemma zip_longest_nil_r (a : list nat) : all_left (zip_longest a []).
Proof. induction a; simpl; constructor; auto. Qed.

Lemma zip_longest_shaped (a : list nat) : forall b, shaped (zip_longest a b).
Proof.
  induction a as [|x a IH]; intros b; simpl.
  - apply sh_right. intros p I. apply in_map_iff in I as (y & <- & _). eauto.
  - destruct b as [|y b].
    + apply sh_left. constructor. apply zip_longest_nil_r.
    + apply sh_both. apply IH.
Qed.

Lemma all_left_nonnil ps : all_left ps -> left_ok ps -> ps <> [] -> ltrim (map eb_sub ps) <> [].
Proof.
  intros A. induction A as [|a ps A IH]; intros L N; [contradiction|].
  simpl. destruct ps as [|q qs].
  - simpl. destruct (Nat.eqb_spec a 0) as [->|]; [|discriminate]. exfalso. apply (L []). reflexivity.
  - specialize (IH (left_ok_tail _ _ L) ltac:(discriminate)).
    destruct (ltrim (map eb_sub (q :: qs))); [contradiction|discriminate].
Qed.

Lemma checked_sub_loop_left ps : all_left ps -> left_ok ps -> forall degs zc,
  checked_sub_loop ps degs zc = Some (degs ++ catchup zc (ltrim (map eb_sub ps))).
Proof.
  intros A. induction A as [|a ps A IH]; intros L degs zc.
  - simpl. rewrite app_nil_r. reflexivity.
  - simpl checked_sub_loop. rewrite IH by (eapply left_ok_tail; exact L). f_equal.
    destruct (Nat.eq_dec a 0) as [->|N].
    + destruct ps as [|q qs]; [exfalso; apply (L []); reflexivity|].
      pose proof (all_left_nonnil (q :: qs) A (left_ok_tail _ _ L) ltac:(discriminate)) as X.
      symmetry. exact (catchup_zero_nn (map eb_sub (q :: qs)) zc degs X).
    + symmetry. exact (catchup_nz a (map eb_sub ps) zc degs N).
Qed.

Lemma checked_sub_loop_spec ps : shaped ps -> left_ok ps -> forall degs zc,
  checked_sub_loop ps degs zc =
    if forallb eb_ge ps then Some (degs ++ catchup zc (ltrim (map eb_sub ps))) else None.
Proof.
  intros S. induction S as [ps A|ps R|a b ps S IH]; intros L degs zc.
  - rewrite checked_sub_loop_left by assumption.
    assert (forallb eb_ge ps = true) as ->; [|reflexivity].
    clear L. induction A; simpl; auto.
  - destruct ps as [|p ps]; [simpl; rewrite app_nil_r; reflexivity|].
    destruct (R p (or_introl eq_refl)) as (b & ->). reflexivity.
  - simpl checked_sub_loop. simpl forallb. simpl map. apply left_ok_tail in L. specialize (IH L).
    destruct (Nat.compare_spec a b) as [->|H|H].
    + rewrite IH. rewrite Nat.leb_refl. simpl andb. rewrite Nat.sub_diag, catchup_zero. reflexivity.
    + assert (b <=? a = false) as -> by (apply Nat.leb_gt; exact H). reflexivity.
    + rewrite IH. assert (b <=? a = true) as -> by (apply Nat.leb_le; lia). simpl andb.
      destruct (forallb eb_ge ps); auto. f_equal. symmetry. apply catchup_nz. lia.
Qed.

Lemma zip_longest_left_ok a : forall b, canonical a -> left_ok (zip_longest a b).
Proof.
  induction a as [|x a IH]; intros b C qs E; simpl in E.
  - assert (I : In (Left 0) (map (@Right nat) b)) by (rewrite E; apply in_or_app; right; left; reflexivity).
    apply in_map_iff in I as (y & Y & _). discriminate.
  - destruct b as [|y b].
    + destruct qs as [|q qs]; simpl in E.
      * injection E as -> E. destruct a; [|discriminate]. apply C. reflexivity.
      * injection E as _ E. eapply IH; [eapply canonical_tail; exact C|exact E].
    + destruct qs as [|q qs]; simpl in E; [discriminate|].
      injection E as _ E. eapply IH; [eapply canonical_tail; exact C|exact E].
Qed.

Lemma zip_ge_spec a : forall b, canonical b ->
  (forallb eb_ge (zip_longest a b) = true <-> forall i, expo b i <= expo a i).
Proof.
  induction a as [|x a IH]; intros b C; simpl.
  - destruct b as [|y b]; simpl.
    + split; [|reflexivity]. intros _ i. lia.
    + split; [discriminate|]. intros H. exfalso.
      apply (canonical_last (y :: b) C ltac:(discriminate)). specialize (H (length (y :: b) - 1)).
      rewrite expo_nil in H. lia.
  - destruct b as [|y b]; simpl.
    + rewrite IH by exact C. split; intros H i; rewrite expo_nil; lia.
    + rewrite andb_true_iff, Nat.leb_le, IH by (eapply canonical_tail; exact C). split.
      * intros [H1 H2] [|i]; [exact H1|]. apply H2.
      * intros H. split; [exact (H 0)|]. intros i. exact (H (S i)).
Qed.

Lemma checked_sub_full a b : canonical a -> canonical b ->
  (exists c, mdeg_checked_sub a b = Some c /\ (forall i, expo b i <= expo a i) /\
     canonical c /\ forall i, expo c i = expo a i - expo b i) \/
  (mdeg_checked_sub a b = None /\ ~ (forall i, expo b i <= expo a i)).
Proof.
  intros Ca Cb. unfold mdeg_checked_sub.
  destruct b as [|y b']; simpl mdeg_is_zero; cbv iota.
  - left. exists a. split; [reflexivity|]. split; [intros i; rewrite expo_nil; lia|]. split; [exact Ca|].
    intros i. rewrite expo_nil. lia.
  - destruct a as [|x a']; simpl mdeg_is_zero; cbv iota.
    + right. split; [reflexivity|]. intros H. apply (canonical_last (y :: b') Cb ltac:(discriminate)).
      specialize (H (length (y :: b') - 1)). rewrite expo_nil in H. lia.
    + rewrite checked_sub_loop_spec; [|apply zip_longest_shaped|apply zip_longest_left_ok; exact Ca].
      destruct (forallb eb_ge _) eqn:E.
      * left. pose proof (proj1 (zip_ge_spec (x :: a') (y :: b') Cb) E) as E'.
        rewrite (zip_longest_map eb_sub Nat.sub); [|intros; simpl; lia..].
        eexists. split; [reflexivity|]. split; [exact E'|].
        assert (X : forall t, [] ++ catchup 0 t = t) by (destruct t; reflexivity).
        rewrite X. split; [apply ltrim_canonical|]. intros i. rewrite ltrim_expo, lzip_expo by reflexivity. reflexivity.
      * right. split; [reflexivity|]. intros H. apply (zip_ge_spec (x :: a') (y :: b') Cb) in H. congruence.
Qed.

Lemma checked_sub_spec a b : mwf a -> mwf b ->
  match mdeg_checked_sub a b with
  | Some c => mwf c /\ canon a = mmul (canon b) (canon c)
  | None => ~ mdiv (canon b) (canon a)
  end.
Proof.
  intros [Ca Ua] [Cb Ub]. destruct (checked_sub_full a b Ca Cb) as [(c & -> & L & Cc & E)|[-> N]].
  - split.
    + split; auto. apply expo_u8. intros i. rewrite E. pose proof (u8_expo a i Ua). lia.
    + apply mono_ext. intros i. rewrite mmul_exp, !canon_exp, E. specialize (L i). lia.
  - rewrite mdiv_canon. exact N.
Qed.

(** ** total degree *)
Lemma foldM_u8_debug v : forall s, s <= 255 ->
  foldM (u8_add Debug) v s = if s + list_sum v <=? 255 then Ok (s + list_sum v) else Panic Overflow.
Proof.
  induction v as [|x v IH]; intros s Hs; simpl.
  - rewrite Nat.add_0_r. apply Nat.leb_le in Hs. rewrite Hs. reflexivity.
  - unfold u8_add at 1. destruct (Nat.leb_spec (s + x) 255) as [L|G]; simpl.
    + rewrite IH by exact L. rewrite Nat.add_assoc. reflexivity.
    + assert (s + (x + list_sum v) <=? 255 = false) as -> by (apply Nat.leb_gt; lia). reflexivity.
Qed.
Lemma total_deg_debug v :
  mdeg_total_deg Debug v = if list_sum v <=? 255 then Ok (list_sum v) else Panic Overflow.
Proof. unfold mdeg_total_deg. rewrite foldM_u8_debug by lia. reflexivity. Qed.

Lemma foldM_u8_release v : forall s, s <= 255 ->
  foldM (u8_add Release) v s = Ok ((s + list_sum v) mod 256).
Proof.
  induction v as [|x v IH]; intros s Hs; cbn [foldM].
  - change (list_sum []) with 0. rewrite Nat.add_0_r, Nat.mod_small by lia. reflexivity.
  - change (list_sum (x :: v)) with (x + list_sum v).
    unfold u8_add at 1. destruct (Nat.leb_spec (s + x) 255) as [L|G]; cbn [bind].
    + rewrite IH by exact L. rewrite Nat.add_assoc. reflexivity.
    + rewrite IH.
      * f_equal. rewrite Nat.add_mod_idemp_l by discriminate. rewrite Nat.add_assoc. reflexivity.
      * pose proof (Nat.mod_upper_bound (s + x) 256 ltac:(discriminate)). lia.
Qed.
Lemma total_deg_release v : mdeg_total_deg Release v = Ok (list_sum v mod 256).
Proof. unfold mdeg_total_deg. rewrite foldM_u8_release by lia. reflexivity. Qed.

Lemma mtot_canon v : mtot (canon v) = list_sum v.
Proof. unfold mtot. simpl. apply list_sum_trim. Qed.

Lemma total_deg_safe v : safe (mdeg_total_deg Debug v) (fun t => t = mtot (canon v)).
Proof. rewrite total_deg_debug, mtot_canon. destruct (_ <=? _); simpl; auto. Qed.

(** ** profile refinement *)
Lemma u8_add_le a b : res_le (u8_add Debug a b) (u8_add Release a b).
Proof. intros r. unfold u8_add. destruct (_ <=? _); auto. discriminate. Qed.
Lemma mdeg_add_loop_le ps : forall degs zc, res_le (mdeg_add_loop Debug ps degs zc) (mdeg_add_loop Release ps degs zc).
Proof.
  induction ps as [|p ps IH]; intros degs zc; [apply res_le_refl|].
  destruct p as [[|a] [|b]|[|a]|[|b]]; simpl mdeg_add_loop; auto; apply res_le_bind; auto using u8_add_le.
Qed.
Lemma mdeg_add_le a b : res_le (mdeg_add Debug a b) (mdeg_add Release a b).
Proof. apply mdeg_add_loop_le. Qed.
Lemma total_deg_le v : res_le (mdeg_total_deg Debug v) (mdeg_total_deg Release v).
Proof. apply res_le_foldM. intros. apply u8_add_le. Qed.
