(** * Property C83: elimination over f32 and f64. *)
From Verif Require Import Base BaseLemmas FieldIface UtilModel MatModel AlgModel MatProofs AlgProofs ElimShape FloatModel PropFloatDiv.
From Coq Require Import Lia.
Local Open Scope nat_scope.

Lemma float_total t e : TotalOps (float_stab t e).
Proof. constructor; intros; eexists; reflexivity. Qed.

(** every well-shaped matrix: the result has the right shape, or the unwrap in the choice of a pivot fails *)
Theorem C83_outcomes : forall t e (a : mat (float_impl t e)) n m, mshape a -> mrows a = n -> mcols a = m ->
  (mat_row_echelon (float_stab t e) a = Panic UnwrapNone \/
   exists s, mat_row_echelon (float_stab t e) a = Ok s /\ fshp n m s /\
     (exists k, form_rank (float_stab t e) s = Ok k /\ k <= n) /\
     (exists s', form_to_rref (float_stab t e) s = Ok s' /\ fshp n m s') /\
     (exists ks, compute_kernel (float_stab t e) s = Ok ks /\ Forall (shp m 1) ks)) /\
  (mat_lu (float_stab t e) a = Panic UnwrapNone \/
   exists p l u, mat_lu (float_stab t e) a = Ok (p, l, u) /\ shp n n p /\ shp n n l /\ shp n m u).
Proof.
  intros t e a n m Sh Rn Cm. pose proof (float_total t e) as TO. assert (H : shp n m a) by (split; auto). split.
  - pose proof (row_echelon_shp _ TO n m a H) as R. destruct (mat_row_echelon _ a) as [s|[]|]; simpl in R; try contradiction; auto.
    right. exists s. split; [reflexivity|]. split; [exact R|]. split; [|split].
    + apply outc_val. apply (rank_shp _ n m s R).
    + apply outc_val. apply (to_rref_shp _ TO n m s R).
    + apply outc_val. apply (kernel_shp _ TO n m s R).
  - pose proof (lu_shp _ TO n m a H) as R. destruct (mat_lu _ a) as [[[p l] u]|[]|]; simpl in R; try contradiction; auto.
    right. exists p, l, u. auto.
Qed.

(** ** The choice of the pivot *)
Definition is_nan (x : float) : bool := match x with S754_nan => true | _ => false end.
(** |x| <= |y| *)
Definition abs_le (x y : float) : Prop := SFleb (SFabs x) (SFabs y) = true.
Definition abs_lt_eps (t : fmt) (x : float) : Prop := SFltb (SFabs x) (fepsilon t) = true.

Lemma stab_some x y : is_nan x = false -> is_nan y = false -> exists c, float_stability_cmp x y = Some c.
Proof. destruct x, y; try discriminate; intros _ _; eexists; reflexivity. Qed.
Lemma stab_none x y : is_nan x = true \/ is_nan y = true -> float_stability_cmp x y = None.
Proof. destruct x, y; intros [H|H]; try discriminate H; reflexivity. Qed.
Lemma cmp_pos_opp m1 e1 m2 e2 :
  match Z.compare e1 e2 with Lt => Lt | Gt => Gt | Eq => Pcompare m1 m2 Eq end =
  CompOpp (match Z.compare e2 e1 with Lt => Lt | Gt => Gt | Eq => Pcompare m2 m1 Eq end).
Proof.
  rewrite (Z.compare_antisym e2 e1). destruct (e2 ?= e1)%Z; cbn [CompOpp]; try reflexivity.
  apply (Pos.compare_antisym m2 m1).
Qed.
Lemma stab_gt x y : float_stability_cmp x y = Some Gt -> abs_le y x.
Proof.
  unfold float_stability_cmp, abs_le, SFleb. destruct x, y; cbn [SFabs SFcompare]; try discriminate; try reflexivity.
  intros H. injection H as H. rewrite cmp_pos_opp, H. reflexivity.
Qed.
Lemma stab_not_gt x y c : float_stability_cmp x y = Some c -> c <> Gt -> abs_le x y.
Proof. unfold float_stability_cmp, abs_le, SFleb. intros -> N. destruct c; [reflexivity|reflexivity|congruence]. Qed.
Lemma abs_le_refl x : is_nan x = false -> abs_le x x.
Proof.
  destruct x; try discriminate; intros _; try reflexivity. unfold abs_le, SFleb. cbn [SFabs SFcompare].
  rewrite Z.compare_refl. change (Pcompare m m Eq) with (m ?= m)%positive. rewrite Pos.compare_refl. reflexivity.
Qed.
(** the order of positive finite values, by exponent and then by significand *)
Lemma abs_le_finite s1 m1 e1 s2 m2 e2 : abs_le (S754_finite s1 m1 e1) (S754_finite s2 m2 e2) <->
  (e1 < e2)%Z \/ (e1 = e2 /\ (m1 <= m2)%positive).
Proof.
  unfold abs_le, SFleb. cbn [SFabs SFcompare]. destruct (Z.compare_spec e1 e2) as [->|L|L].
  - change (Pcompare m1 m2 Eq) with (m1 ?= m2)%positive. destruct (Pos.compare_spec m1 m2); split; intros Hx;
      first [reflexivity|discriminate Hx|right; split; [reflexivity|lia]|lia].
  - split; auto.
  - split; [discriminate|lia].
Qed.
Lemma abs_le_trans x y z : abs_le x y -> abs_le y z -> abs_le x z.
Proof.
  destruct x as [s1|s1| |s1 m1 e1], y as [s2|s2| |s2 m2 e2], z as [s3|s3| |s3 m3 e3];
    try (intros H1 H2; first [discriminate H1|discriminate H2|reflexivity]).
  rewrite !abs_le_finite. intros [A|[A A']] [B|[B B']]; [left; lia..|right; split; lia].
Qed.
Lemma abs_le_eps t x y : abs_le x y -> abs_lt_eps t y -> abs_lt_eps t x.
Proof.
  unfold abs_lt_eps, SFltb, fepsilon. destruct x as [s1|s1| |s1 m1 e1], y as [s2|s2| |s2 m2 e2];
    try (intros H1 H2; first [discriminate H1|discriminate H2|reflexivity]).
  rewrite abs_le_finite. cbn [SFabs SFcompare]. set (p := Z.to_pos _). set (k := (2 - 2 * prec t)%Z).
  change (Pcompare m1 p Eq) with (m1 ?= p)%positive. change (Pcompare m2 p Eq) with (m2 ?= p)%positive.
  destruct (Z.compare_spec e1 k), (Z.compare_spec e2 k), (Pos.compare_spec m1 p), (Pos.compare_spec m2 p);
    intros A1 A2; try discriminate A2; try reflexivity; exfalso; lia.
Qed.
Lemma eps_zero t x : float_epsilon_equals t x fzero = SFltb (SFabs x) (fepsilon t).
Proof. unfold float_epsilon_equals. destruct x as [[]|[]| |[] ? ?]; reflexivity. Qed.

(** the candidates are the entries of column [c] from row [r] down *)
Theorem C83_pivot : forall t e (a : mat (float_impl t e)) c r, mshape a -> c < mcols a -> r < mrows a ->
  (forall i, r <= i < mrows a -> is_nan (mentry a i c) = false) ->
  exists o, stable_column_index (float_stab t e) a c r = Ok o /\
  match o with
  | Some (i, x) => r <= i < mrows a /\ x = mentry a i c /\ ~ abs_lt_eps t x /\
      (forall j, r <= j < mrows a -> abs_le (mentry a j c) x)
  | None => forall j, r <= j < mrows a -> abs_lt_eps t (mentry a j c)
  end.
Proof.
  intros t e a c r Sh Hc Hr Nn. unfold stable_column_index. rewrite col_list_ok by assumption. cbn [bind].
  rewrite skipn_map_seq. cbn [Nat.add]. set (l := map _ _).
  assert (L : length l = mrows a - r) by (unfold l; rewrite map_length, seq_length; reflexivity).
  assert (Ni : forall k y, nth_error l k = Some y -> y = mentry a (r + k) c /\ r + k < mrows a).
  { intros k y E. assert (K : k < length l) by (apply nth_error_Some; congruence).
    unfold l in E. rewrite nth_error_map in E.
    rewrite (nth_error_nth' (seq r (mrows a - r)) 0) in E by (rewrite seq_length; lia).
    rewrite seq_nth in E by lia. cbn in E. injection E as <-. split; [reflexivity|lia]. }
  assert (G : safe (get_max_index (fstab (float_stab t e)) l) (fun i => exists x, i < length l /\ x = mentry a (r + i) c /\
      forall j, j < length l -> abs_le (mentry a (r + j) c) x)).
  { eapply safe_mono; [apply (get_max_index_inv _ l (fun k i x => i < k /\ k <= length l /\ x = mentry a (r + i) c /\
      forall j, j < k -> abs_le (mentry a (r + j) c) x))|].
    - intros E. rewrite E in L. cbn in L. lia.
    - intros x E. destruct (Ni 0 x E) as [-> B]. repeat split; try lia. intros j Hj. replace j with 0 by lia.
      apply abs_le_refl. apply Nn. lia.
    - intros k i x y Hk E (Hi & Hkl & -> & Hx). destruct (Ni k y E) as [-> B].
      destruct (stab_some (mentry a (r + i) c) (mentry a (r + k) c)) as [d D]; [apply Nn; lia..|].
      apply safe_Ok. exists d. split; [exact D|]. split.
      + intros ->. repeat split; try lia. intros j Hj. destruct (Nat.eq_dec j k) as [->|Njk]; [|apply Hx; lia].
        apply stab_gt. exact D.
      + intros Nd. repeat split; try lia. intros j Hj. destruct (Nat.eq_dec j k) as [->|Njk]; [apply abs_le_refl; apply Nn; lia|].
        eapply abs_le_trans; [apply Hx; lia|]. eapply stab_not_gt; eassumption.
    - intros i (x & Hi & _ & -> & Hx). exists (mentry a (r + i) c). auto. }
  assert (T : outc True (get_max_index (fstab (float_stab t e)) l) (fun i => i < length l)).
  { apply max_index_lt; [intros E; rewrite E in L; cbn in L; lia|]. intros; eexists; reflexivity. }
  destruct (get_max_index _ l) as [i|[]|]; simpl in G, T; try contradiction.
  destruct G as (x & Hi & Ex & Hx). assert (Hi2 : i < mrows a - r) by (rewrite <- L; exact Hi). assert (Hx2 : forall j, j < mrows a - r -> abs_le (mentry a (r + j) c) x) by (intros j; rewrite <- L; apply Hx). clear Hx Hi. cbn [bind]. rewrite mget_ok by (try assumption; lia). cbn [bind].
  rewrite (Nat.add_comm i r), <- Ex. eexists. split; [reflexivity|].
  change (feps (float_stab t e) x f0) with (float_epsilon_equals t x fzero). rewrite eps_zero.
  destruct (SFltb (SFabs x) (fepsilon t)) eqn:Z.
  - intros j Hj. apply (abs_le_eps t _ x); [|exact Z]. replace j with (r + (j - r)) by lia. apply Hx2. lia.
  - split; [lia|]. split; [exact Ex|]. split; [unfold abs_lt_eps; congruence|].
    intros j Hj. replace j with (r + (j - r)) by lia. apply Hx2. lia.
Qed.
(** with two candidates or more, one of which is NaN, there is no pivot and no result *)
Lemma max_nan l : forall b : nat * float, (is_nan (snd b) = true /\ l <> [] \/ exists p, In p l /\ is_nan (snd p) = true) ->
  foldM (fun p q => c <- (c <- Ok (float_stability_cmp (snd p) (snd q)) ;; unwrap c) ;; Ok (match c with Gt => p | _ => q end)) l b =
  Panic UnwrapNone.
Proof.
  induction l as [|q l IH]; intros b H.
  - destruct H as [[_ H]|(p & [] & _)]. congruence.
  - cbn [foldM]. destruct (is_nan (snd b)) eqn:B; [cbn [bind]; rewrite stab_none by auto; reflexivity|].
    destruct (is_nan (snd q)) eqn:Q; [cbn [bind]; rewrite stab_none by auto; reflexivity|].
    destruct (stab_some _ _ B Q) as [d D]. cbn [bind]. rewrite D. cbn [unwrap bind].
    apply IH. right. destruct H as [[H _]|(p & [<-|I] & P)]; [congruence|congruence|eauto].
Qed.
Theorem C83_pivot_nan : forall t e (a : mat (float_impl t e)) c r i, mshape a -> c < mcols a -> r + 1 < mrows a ->
  r <= i < mrows a -> is_nan (mentry a i c) = true ->
  stable_column_index (float_stab t e) a c r = Panic UnwrapNone.
Proof.
  intros t e a c r i Sh Hc Hr Hi N. unfold stable_column_index. rewrite col_list_ok by assumption. cbn [bind].
  rewrite skipn_map_seq. cbn [Nat.add].
  replace (mrows a - r) with (S (S (mrows a - r - 2))) by lia. cbn [seq map].
  set (x0 := mentry a r c). set (x1 := mentry a (S r) c). set (l := map _ _).
  assert (E : get_max_index (fstab (float_stab t e)) (x0 :: x1 :: l) = Panic UnwrapNone).
  { unfold get_max_index, enumerate, max_by. cbn [length seq combine].
    match goal with |- bind (bind (foldM ?f ?ll ?b) _) _ = _ =>
      assert (M : foldM f ll b = Panic UnwrapNone) end.
    { apply max_nan. destruct (Nat.eq_dec i r) as [->|Nr]; [left; split; [exact N|discriminate]|]. right.
      set (L := x1 :: l). change ((1, x1) :: combine (seq 2 (length l)) l) with (combine (seq 1 (length L)) L).
      assert (Len : length l = mrows a - r - 2) by (unfold l; rewrite map_length, seq_length; reflexivity).
      exists (i - r, mentry a i c). split; [|exact N].
      assert (K : i - r - 1 < length (combine (seq 1 (length L)) L)).
      { rewrite combine_length, seq_length. cbn [length L]. unfold L. cbn [length]. lia. }
      assert (Q : nth (i - r - 1) (combine (seq 1 (length L)) L) (0, f0 : float_impl t e) = (i - r, mentry a i c)).
      { rewrite combine_nth by apply seq_length. rewrite seq_nth by (unfold L; cbn [length]; lia). f_equal; [lia|].
        unfold L, x1, l. change (mentry a (S r) c :: map (fun r0 => mentry a r0 c) (seq (S (S r)) (mrows a - r - 2)))
          with (map (fun r0 => mentry a r0 c) (seq (S r) (S (mrows a - r - 2)))).
        rewrite nth_map_seq by lia. f_equal. lia. }
      rewrite <- Q. apply nth_In. exact K. }
    rewrite M. reflexivity. }
  rewrite E. reflexivity.
Qed.

(** without overflow checks nullity agrees as long as it does not panic with them; [mcols] is a usize *)
Theorem C83_nullity_release : forall (F : FieldImpl) (T : StabImpl F) s k, (Z.of_nat (mcols (fb s)) < 2 ^ 64)%Z ->
  form_nullity T s = Ok k -> form_nullity_release T s = Ok (Z.of_nat k).
Proof.
  intros F T s k B H. unfold form_nullity, form_nullity_release in *. destruct (form_rank T s) as [r| |]; try discriminate. cbn [bind] in *.
  destruct (Nat.leb_spec r (mcols (fb s))) as [L|L]; [|discriminate]. injection H as <-. rewrite Nat2Z.inj_sub by exact L.
  rewrite Z.mod_small by lia. reflexivity.
Qed.

(** ** What does not survive rounding *)
Section Refuted.
Context (e : fenv).
Notation G := (float_impl binary64 e).
Notation TG := (float_stab binary64 e).
Definition intm (n m : nat) (l : list Z) : mat G := @mkmat G (map (of_int binary64 : Z -> G) l) n m.
(** documentation of nullity and rank: the rank of a matrix with one column is at most one *)
Theorem C83_rank_refuted : exists s : @form G, mat_row_echelon TG (intm 2 1 [49; 49]%Z) = Ok s /\
  form_rank TG s = Ok 2 /\ form_nullity TG s = Panic Overflow.
Proof.
  assert (H : (s <- mat_row_echelon TG (intm 2 1 [49; 49]%Z) ;; Ok (form_rank TG s, form_nullity TG s)) = Ok (Ok 2, Panic Overflow))
    by (vm_compute; reflexivity).
  apply bind_Ok in H as (s & E & H). exists s. injection H as H1 H2. auto.
Qed.
Theorem C83_nullity_release_refuted : exists s : @form G, mat_row_echelon TG (intm 2 1 [49; 49]%Z) = Ok s /\
  form_nullity_release TG s = Ok 18446744073709551615%Z.
Proof.
  assert (H : (s <- mat_row_echelon TG (intm 2 1 [49; 49]%Z) ;; Ok (form_nullity_release TG s)) = Ok (Ok 18446744073709551615%Z))
    by (vm_compute; reflexivity).
  apply bind_Ok in H as (s & E & H). exists s. injection H as H1. auto.
Qed.
(** the pivots are not 1 either *)
Theorem C83_pivot_one_refuted : exists s : @form G, mat_row_echelon TG (intm 1 1 [49]%Z) = Ok s /\
  SFeqb (mentry (fb s) 0 0) (fone binary64) = false.
Proof.
  assert (H : (s <- mat_row_echelon TG (intm 1 1 [49]%Z) ;; Ok (SFeqb (mentry (fb s) 0 0) (fone binary64))) = Ok false)
    by (vm_compute; reflexivity).
  apply bind_Ok in H as (s & E & H). exists s. injection H as H. auto.
Qed.
(** documentation of lu: p * self = l * u, even compared with epsilon_equals *)
Theorem C83_lu_refuted : exists p l u pa lu : mat G, mat_lu TG (intm 1 1 [102760448]%Z) = Ok (p, l, u) /\
  mat_mul p (intm 1 1 [102760448]%Z) = Ok pa /\ mat_mul l u = Ok lu /\ mat_epsilon_equals TG pa lu = Ok false.
Proof.
  assert (H : (r <- mat_lu TG (intm 1 1 [102760448]%Z) ;; pa <- mat_mul (fst (fst r)) (intm 1 1 [102760448]%Z) ;;
      lu <- mat_mul (snd (fst r)) (snd r) ;; mat_epsilon_equals TG pa lu) = Ok false) by (vm_compute; reflexivity).
  apply bind_Ok in H as ([[p l] u] & E & H). apply bind_Ok in H as (pa & E1 & H). apply bind_Ok in H as (lu & E2 & H).
  exists p, l, u, pa, lu. auto.
Qed.
(** finite entries do not prevent the panic: with B = 2^1023, rows (1, -B, -B) and three times (1, B, B) *)
Definition big : G := S754_finite false 4503599627370496 971.
Definition nbig : G := S754_finite true 4503599627370496 971.
Definition one : G := fone binary64.
Definition bigm : mat G := @mkmat G [one; nbig; nbig; one; big; big; one; big; big; one; big; big] 4 3.
Definition unwrap_failed {A : Type} (x : res A) : bool := match x with Panic UnwrapNone => true | _ => false end.
Lemma unwrap_failed_eq {A : Type} (x : res A) : unwrap_failed x = true -> x = Panic UnwrapNone.
Proof. destruct x as [|[]|]; try discriminate. reflexivity. Qed.
Theorem C83_finite_panics_refuted : mshape bigm /\ (forall i j, i < 4 -> j < 3 -> finite (mentry bigm i j) = true) /\
  mat_row_echelon TG bigm = Panic UnwrapNone /\ mat_lu TG bigm = Panic UnwrapNone.
Proof.
  split; [reflexivity|]. split.
  - intros [|[|[|[|i]]]] [|[|[|j]]] Hi Hj; try lia; reflexivity.
  - split; apply unwrap_failed_eq; vm_compute; reflexivity.
Qed.
End Refuted.

(** the hypotheses on concrete values: (1; -7; 3) has the pivot -7, (2^-60; 0) has none, (NaN; 1) panics *)
Notation env0 := (mkenv (fun x _ => x) false).
Example C83_ex_pivot :
  stable_column_index (float_stab binary64 env0) (intm env0 3 1 [1; -7; 3]%Z) 0 0 = Ok (Some (1, of_int binary64 (-7))) /\
  stable_column_index (float_stab binary64 env0) (@mkmat (float_impl binary64 env0) [S754_finite false 4503599627370496 (-112); fzero] 2 1) 0 0 = Ok None /\
  stable_column_index (float_stab binary64 env0) (@mkmat (float_impl binary64 env0) [S754_nan; fone binary64] 2 1) 0 0 = Panic UnwrapNone.
Proof. split; [|split]; reflexivity. Qed.
Example C83_ex_outcomes :
  (s <- mat_row_echelon (float_stab binary64 env0) (intm env0 2 2 [1; 2; 3; 5]%Z) ;; form_rank (float_stab binary64 env0) s) = Ok 2.
Proof. vm_compute. reflexivity. Qed.

Print Assumptions C83_outcomes.
Print Assumptions C83_pivot.
Print Assumptions C83_pivot_nan.
Print Assumptions C83_rank_refuted.
Print Assumptions C83_nullity_release.
Print Assumptions C83_nullity_release_refuted.
Print Assumptions C83_pivot_one_refuted.
Print Assumptions C83_lu_refuted.
Print Assumptions C83_finite_panics_refuted.
