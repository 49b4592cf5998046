(** * Property C100: how many iterations gcd and divide take.

    The fuel of a loop in the model is the number of iterations it may start: [NoFuel] is the outcome
    when one more would be needed. *)
From Coq Require Import ZArith QArith Qcanon.
From Verif Require Import Base BaseLemmas IntModel RatModel FieldIface RatProofs MDegModel OrdModel PolyModel CompModel
  MonoSpec MDegProofs OrdProofs PolySpec PolyProofs GroebnerSpec DivProofs.
From Coq Require Import Lia Ring Field Setoid Morphisms Permutation.

(** ** gcd: Lame's bound *)
Section Gcd.
Local Open Scope Z_scope.
(** the pair F(n), F(n+1) *)
Fixpoint fib2 (n : nat) : Z * Z := match n with O => (0, 1) | S k => let '(a, b) := fib2 k in (b, a + b) end.
Definition fib (n : nat) : Z := fst (fib2 n).
Lemma fib_SS n : fib (S (S n)) = fib n + fib (S n).
Proof. unfold fib. cbn. destruct (fib2 n). reflexivity. Qed.
Lemma fib_nonneg n : 0 <= fib n /\ 0 < fib (S n).
Proof.
  induction n as [|n [A B]]; [cbn; lia|]. split; [lia|]. rewrite fib_SS. lia.
Qed.

Lemma rem_small a b : b <> 0 -> Z.abs b < Z.abs a -> Z.abs (Z.rem a b) <= Z.abs a - Z.abs b.
Proof.
  intros N L. rewrite <- Z.rem_abs by exact N.
  assert (Pb : 0 < Z.abs b) by lia. rewrite Z.rem_mod_nonneg by lia.
  rewrite Z.mod_eq by lia. assert (1 <= Z.abs a / Z.abs b) by (apply Z.div_le_lower_bound; lia). nia.
Qed.
Lemma gcd_loop_lame m : forall k a b, Z.abs b < Z.abs a -> (Z.abs b < fib (k + 2) \/ Z.abs a < fib (k + 3)) ->
  gcd_loop k m a b <> NoFuel.
Proof.
  assert (Abs : forall z, int_abs m z <> NoFuel).
  { intros z. unfold int_abs, chk64. destruct (in64b _); [discriminate|destruct m; discriminate]. }
  induction k as [|k IH]; intros a b L H.
  - assert (b = 0) as -> by (cbn in H; lia). cbn. apply Abs.
  - cbn [gcd_loop]. destruct (Z.eqb_spec b 0) as [_|N]; [apply Abs|].
    unfold int_rem. rewrite (proj2 (Z.eqb_neq b 0) N). destruct (_ && _)%bool; [discriminate|]. cbn [bind].
    pose proof (Z.rem_bound_abs a b N) as R. apply IH; [exact R|].
    replace (k + 3)%nat with (S k + 2)%nat by lia. destruct (Z.lt_ge_cases (Z.abs b) (fib (S k + 2))) as [S|G]; [right; exact S|].
    left. destruct H as [H|H]; [lia|]. pose proof (rem_small a b N L).
    replace (S k + 3)%nat with (S (S (k + 2))) in H by lia. rewrite fib_SS in H.
    replace (S k + 2)%nat with (S (k + 2)) in G by lia. lia.
Qed.

(** k iterations are enough when |b| < F(k+2) *)
Theorem C100_gcd_steps : forall m a b k, Z.abs b < fib (k + 2) -> gcd_loop k m a b <> NoFuel.
Proof.
  intros m a b [|k] H.
  - assert (b = 0) as -> by (cbn in H; lia). cbn. unfold int_abs, chk64. destruct (in64b _); [discriminate|destruct m; discriminate].
  - cbn [gcd_loop]. destruct (Z.eqb_spec b 0) as [_|N].
    { unfold int_abs, chk64. destruct (in64b _); [discriminate|destruct m; discriminate]. }
    unfold int_rem. rewrite (proj2 (Z.eqb_neq b 0) N). destruct (_ && _)%bool; [discriminate|]. cbn [bind].
    apply gcd_loop_lame; [apply Z.rem_bound_abs; exact N|]. right. replace (k + 3)%nat with (S k + 2)%nat by lia. exact H.
Qed.
(** 91 for all i64 arguments, and 90 are not enough *)
Theorem C100_gcd_91 : forall m a b, in64 a -> in64 b -> gcd_loop 91 m a b <> NoFuel.
Proof.
  intros m a b _ Hb. apply C100_gcd_steps. assert (E : fib (91 + 2) = 12200160415121876738) by (vm_compute; reflexivity).
  rewrite E. unfold in64, i64_min, i64_max in Hb. lia.
Qed.
Theorem C100_gcd_91_tight : forall m, in64 (fib 91) /\ in64 (fib 92) /\ gcd_loop 90 m (fib 91) (fib 92) = NoFuel.
Proof.
  intros m. assert (E : fib 91 = 4660046610375530309 /\ fib 92 = 7540113804746346429) by (split; vm_compute; reflexivity).
  destruct E as [-> ->]. split; [unfold in64, i64_min, i64_max; lia|]. split; [unfold in64, i64_min, i64_max; lia|].
  vm_compute. reflexivity.
Qed.
End Gcd.

(** ** divide *)
Local Open Scope nat_scope.
Section Divide.
Context {F : FieldImpl} {K : MathField} (FS : FieldSpec F K) {O : ord_impl} (OS : OrderSpec O).
Add Field Kf24 : (kth K).
Add Ring Pr24 : (@poly_ring K) (setoid (@peq_equiv K) (@poly_ring_ext K)).
Notation poly := (poly F).
Notation val := (ip FS).
Notation clean := (pwf FS).
Notation lt := (olt OS).
Notation le := (mle (olt OS)).
Let laws := olaws _ OS.
Notation tm t := (canon (tdeg t)).
Notation u8 y := (forall i, mexp y i <= 255).

Lemma clean_u8 (f : poly) x : clean f -> coeff (val f) x <> k0 -> u8 x.
Proof.
  intros W N i. apply (pwf_support FS f x W) in N as (t & It & <-). destruct (pwf_in FS f t W It) as (_ & _ & _ & U).
  rewrite canon_exp. unfold expo. unfold u8s in U. rewrite Forall_forall in U.
  destruct (Nat.lt_ge_cases i (length (tdeg t))) as [L|G]; [apply U; apply nth_In; exact L|]. rewrite nth_overflow by exact G. lia.
Qed.
Lemma safe_not_nofuel {A B} (x : res A) (f : A -> res B) P : safe x P -> (forall a, P a -> f a <> NoFuel) -> bind x f <> NoFuel.
Proof. destruct x as [a|[]|]; cbn; auto; try discriminate; tauto. Qed.

Lemma divide_loop_steps n divs : Forall clean divs -> (forall g, In g divs -> svars n (val g)) ->
  forall fuel L (f : poly) quots rem, length L <= fuel -> clean f -> svars n (val f) -> Forall clean quots -> clean rem ->
  length quots = length divs ->
  (forall y x, mvars n y -> u8 y -> coeff (val f) x <> k0 -> le y x -> In y L) ->
  divide_loop Debug O fuel f divs quots rem <> NoFuel.
Proof.
  intros Wd Vd. induction fuel as [|fuel IH]; intros L f quots rem Len Wf Vf Wq Wr Lq HL.
  - destruct L; [|cbn in Len; lia]. cbn [divide_loop].
    destruct (leading_term_cases FS OS f Wf) as [[Ef E]|[E|(t & E & It & Wt & Lt & Ct)]]; rewrite E; cbn [bind]; try discriminate.
    exfalso. apply (HL (tm t) (tm t)); [apply Vf; apply Lt|apply (clean_u8 f); [exact Wf|apply Lt]|apply Lt|apply mle_refl].
  - cbn [divide_loop].
    destruct (leading_term_cases FS OS f Wf) as [[Ef E]|[E|(t & E & It & Wt & Lt & Ct)]]; rewrite E; cbn [bind]; try discriminate.
    assert (Im : In (tm t) L).
    { apply (HL (tm t) (tm t)); [apply Vf; apply Lt|apply (clean_u8 f); [exact Wf|apply Lt]|apply Lt|apply mle_refl]. }
    apply in_split in Im as (L1 & L2 & EL).
    assert (Rec : forall f' quots' rem', clean f' -> svars n (val f') -> Forall clean quots' -> clean rem' ->
       length quots' = length divs -> (forall x, coeff (val f') x <> k0 -> lt x (tm t)) ->
       divide_loop Debug O fuel f' divs quots' rem' <> NoFuel).
    { intros f' quots' rem' Wf' Vf' Wq' Wr' Lq' Low. apply (IH (L1 ++ L2)); auto.
      - rewrite EL, app_length in Len. cbn in Len. rewrite app_length. lia.
      - intros y x Vy Uy Nx Le. assert (Ly : lt y (tm t)) by (apply (mle_lt_trans _ laws) with x; [exact Le|exact (Low x Nx)]).
        assert (Iy : In y L) by (apply (HL y (tm t) Vy Uy); [apply Lt|right; exact Ly]). rewrite EL in Iy.
        apply in_app_or in Iy as [Iy|[Iy|Iy]]; [apply in_or_app; auto| |apply in_or_app; auto].
        rewrite Iy in Ly. exfalso. exact (lt_irrefl _ laws _ Ly). }
    eapply safe_not_nofuel; [apply (try_divisors_ok FS OS t Wt divs quots); assumption|].
    intros [[[quots' a] g]|] H.
    + destruct H as (i & q & q' & l & Hg & Hq & -> & Wq' & Eq' & Wa & Lg & Em & Ed & Hfirst).
      assert (Ig : In g divs) by (eapply nth_error_In; exact Hg).
      assert (Wg : clean g) by (rewrite Forall_forall in Wd; auto).
      eapply safe_not_nofuel; [apply (term_mul_poly_ok FS a g); assumption|]. intros ag [Wag Eag].
      eapply safe_not_nofuel; [apply (poly_sub_ok FS f ag Wf); apply Forall_twf0; apply Wag|]. intros f' [Wf' Ef'].
      assert (Ef'' : peq (val f') (psub (val f) (tmul (den FS (coef a)) (tm a) (val g)))) by (rewrite Ef', Eag; reflexivity).
      apply Rec; auto.
      * rewrite Ef''. apply svars_sub; [exact Vf|]. apply svars_tmul; [|auto].
        assert (Vt : mvars n (tm t)) by (apply Vf; apply Lt). rewrite Em in Vt. apply mvars_mul in Vt. apply Vt.
      * apply Forall_list_set; assumption.
      * rewrite list_set_length. exact Lq.
      * intros x X. rewrite Ef'' in X. rewrite Ed, <- Ct in X. eapply (reduce_lm lt laws (val f) (val g) l (tm a) (tm t)); eassumption.
    + eapply safe_not_nofuel; [apply (sort_ok FS OS f); apply Forall_twf0; apply Wf|]. intros fs (P & S & _).
      pose proof (vec_pop_spec fs) as V. destruct (vec_pop fs) as [f' [l|]].
      * subst fs.
        assert (Il : In l f) by (apply (Permutation_in _ (Permutation_sym P)); apply in_or_app; right; left; reflexivity).
        assert (Mx : forall s, In s f -> le (tm s) (tm l)).
        { intros s Is. apply (Permutation_in _ P) in Is. apply in_app_or in Is as [Is|[<-|[]]]; [|apply mle_refl].
          clear - S Is. induction f' as [|y f' IH]; [contradiction|]. simpl in S. inversion S as [|? ? S' M]; subst.
          destruct Is as [->|Is]; [|auto]. rewrite Forall_forall in M. apply M. apply in_or_app. right. left. reflexivity. }
        assert (El : tm l = tm t) by (apply (is_lm_unique lt laws (val f)); [apply (pwf_lm FS OS); auto|exact Lt]).
        assert (Wl : twf FS l) by (exact (pwf_in FS f l Wf Il)).
        assert (Wp : clean (f' ++ [l])) by (apply (pwf_perm FS f); assumption).
        assert (Wf' : clean f').
        { destruct Wp as [A N]. apply Forall_app in A as [A _]. split; [exact A|]. rewrite map_app in N.
          clear - N. induction (map tdeg f') as [|x xs IH]; [constructor|]. simpl in N. inversion N; subst. constructor; auto.
          intros I. apply H1. apply in_or_app. left. exact I. }
        eapply safe_not_nofuel; [apply (poly_add_term_ok FS rem l Wr); apply twf_twf0; exact Wl|]. intros rem' [Wr' Er'].
        assert (Sub : forall x, coeff (val f') x <> k0 -> coeff (val f) x <> k0 /\ x <> tm l).
        { intros x X. apply (pwf_support FS f' x Wf') in X as (s & Is & <-). split.
          - apply (pwf_support FS f _ Wf). exists s. split; [|reflexivity].
            apply (Permutation_in _ (Permutation_sym P)). apply in_or_app. left. exact Is.
          - intros Ex. destruct Wp as [A N]. rewrite map_app in N. cbn in N.
            assert (Ws : twf FS s) by exact (pwf_in FS f' s Wf' Is).
            assert (Ed : tdeg s = tdeg l) by (apply canon_inj; [apply Ws|apply Wl|exact Ex]).
            apply NoDup_remove_2 in N. apply N. rewrite app_nil_r, <- Ed. apply in_map. exact Is. }
        apply Rec; auto.
        -- intros x X. apply Vf. apply Sub. exact X.
        -- intros x X. destruct (Sub x X) as [Y N]. rewrite <- El. destruct (proj2 Lt x Y) as [Z|Z]; [congruence|rewrite El; exact Z].
      * destruct V as [-> ->]. apply Permutation_sym in P. apply Permutation_nil in P. subst f. contradiction.
Qed.

(** divide starts at most as many iterations as there are monomials, in the variables of the input and
    with u8 exponents, that are not above all monomials of f *)
Theorem C100_divide_steps : forall n (f : poly) divs L fuel, clean f -> Forall clean divs ->
  svars n (val f) -> (forall g, In g divs -> svars n (val g)) ->
  (forall y x, mvars n y -> u8 y -> coeff (val f) x <> k0 -> le y x -> In y L) -> length L <= fuel ->
  divide Debug O fuel f divs <> NoFuel.
Proof.
  intros n f divs L fuel Wf Wd Vf Vd HL Len. unfold divide. apply (divide_loop_steps n divs Wd Vd fuel L); auto.
  - apply Forall_forall. intros p Ip. apply repeat_spec in Ip. subst p. apply pwf_nil.
  - apply pwf_nil.
  - apply repeat_length.
Qed.

(** *** the box and the simplex of exponents *)
Fixpoint box (n b : nat) : list (list nat) :=
  match n with 0 => [[]] | S n' => flat_map (fun e => map (cons e) (box n' b)) (seq 0 (S b)) end.
Fixpoint simplex (n d : nat) : list (list nat) :=
  match n with 0 => [[]] | S n' => flat_map (fun e => map (cons e) (simplex n' (d - e))) (seq 0 (S d)) end.
(** binomial coefficients *)
Fixpoint choose (n k : nat) : nat :=
  match k with 0 => 1 | S k' => match n with 0 => 0 | S n' => choose n' k' + choose n' k end end.

Lemma box_length n b : length (box n b) = (S b) ^ n.
Proof.
  induction n as [|n IH]; [reflexivity|]. cbn [box].
  assert (G : forall l, length (flat_map (fun e => map (cons e) (box n b)) l) = length l * (S b) ^ n).
  { induction l as [|e l IHl]; [reflexivity|]. cbn [flat_map]. rewrite app_length, map_length, IH, IHl. cbn [length]. lia. }
  rewrite G, seq_length. reflexivity.
Qed.
Lemma box_in n b : forall l, length l = n -> Forall (fun e => e <= b) l -> In l (box n b).
Proof.
  induction n as [|n IH]; intros [|e l] L H; try discriminate; [left; reflexivity|].
  inversion H; subst. cbn [box]. apply in_flat_map. exists e. split; [apply in_seq; lia|]. apply in_map. apply IH; [injection L as L; exact L|assumption].
Qed.
Lemma simplex_in n : forall d l, length l = n -> list_sum l <= d -> In l (simplex n d).
Proof.
  induction n as [|n IH]; intros d [|e l] L H; try discriminate; [left; reflexivity|].
  cbn [list_sum fold_right] in H. change (fold_right Nat.add 0 l) with (list_sum l) in H.
  cbn [simplex]. apply in_flat_map. exists e. split; [apply in_seq; lia|]. apply in_map. apply IH; [injection L as L; exact L|lia].
Qed.
Lemma choose_0 n : choose n 0 = 1. Proof. destruct n; reflexivity. Qed.
Lemma choose_S n k : choose (S n) (S k) = choose n k + choose n (S k). Proof. reflexivity. Qed.
Lemma choose_gt n : forall k, n < k -> choose n k = 0.
Proof. induction n as [|n IH]; intros [|k] H; try lia; [reflexivity|]. rewrite choose_S, !IH by lia. reflexivity. Qed.
Lemma choose_diag n : choose n n = 1.
Proof. induction n as [|n IH]; [reflexivity|]. rewrite choose_S, IH, choose_gt by lia. reflexivity. Qed.
Lemma simplex_length n : forall d, length (simplex n d) = choose (n + d) n.
Proof.
  induction n as [|n IH]; intros d; [rewrite choose_0; reflexivity|]. cbn [simplex].
  assert (G : forall k, k <= d -> length (flat_map (fun e => map (cons e) (simplex n (d - e))) (seq (d - k) (S k))) = choose (S n + k) (S n)).
  { induction k as [|k IHk]; intros Hk.
    - cbn [seq flat_map]. rewrite app_nil_r, map_length, IH. replace (d - (d - 0)) with 0 by lia.
      rewrite !Nat.add_0_r, !choose_diag. reflexivity.
    - rewrite <- cons_seq. cbn [flat_map]. rewrite app_length, map_length, IH.
      replace (d - (d - S k)) with (S k) by lia. replace (S (d - S k)) with (d - k) by lia. rewrite IHk by lia.
      replace (S n + S k) with (S (n + S k)) by lia. rewrite choose_S. replace (S n + k) with (n + S k) by lia. reflexivity. }
  specialize (G d (le_n d)). rewrite Nat.sub_diag in G. exact G.
Qed.
(** padding *)
Lemma pad_mono n (y : mono) : mvars n y -> exists l, length l = n /\ canon l = y /\ list_sum l = mtot y /\ forall b, (forall i, mexp y i <= b) -> Forall (fun e => e <= b) l.
Proof.
  intros V. apply mvars_iff in V. exists (mlist y ++ repeat 0 (n - length (mlist y))).
  split; [rewrite app_length, repeat_length; lia|]. split; [|split].
  - apply mono_ext. intros i. rewrite canon_exp. unfold mexp, expo.
    destruct (Nat.lt_ge_cases i (length (mlist y))) as [L|G]; [apply app_nth1; exact L|].
    rewrite app_nth2 by exact G. rewrite (nth_overflow (mlist y)) by exact G. apply nth_repeat.
  - unfold mtot. rewrite list_sum_app. replace (list_sum (repeat 0 (n - length (mlist y)))) with 0; [lia|].
    generalize (n - length (mlist y)). intros k. induction k; cbn in *; auto.
  - intros b H. apply Forall_app. split.
    + apply Forall_forall. intros e Ie. apply (In_nth _ _ 0) in Ie as (i & Li & <-). exact (H i).
    + apply Forall_forall. intros e Ie. apply repeat_spec in Ie. lia.
Qed.

(** at most 256^n iterations in n variables *)
Theorem C100_divide_256 : forall n (f : poly) divs fuel, clean f -> Forall clean divs ->
  svars n (val f) -> (forall g, In g divs -> svars n (val g)) -> 256 ^ n <= fuel ->
  divide Debug O fuel f divs <> NoFuel.
Proof.
  intros n f divs fuel Wf Wd Vf Vd Len. apply (C100_divide_steps n f divs (map canon (box n 255))); auto.
  - intros y x Vy Uy _ _. destruct (pad_mono n y Vy) as (l & Ll & <- & _ & Hb). apply in_map. apply box_in; [exact Ll|]. apply Hb. exact Uy.
  - rewrite map_length, box_length. exact Len.
Qed.

(** in one variable at most deg f + 1 iterations, whatever the order *)
Lemma one_var y x : mvars 1 y -> mvars 1 x -> le y x -> mexp y 0 <= mexp x 0.
Proof.
  intros Vy Vx Le. destruct (Nat.le_gt_cases (mexp y 0) (mexp x 0)) as [|G]; [assumption|exfalso].
  assert (E : y = mmul x (canon [mexp y 0 - mexp x 0])).
  { apply mono_ext. intros [|i]; rewrite mmul_exp, canon_exp; unfold expo; cbn [nth]; [lia|].
    rewrite Vy, Vx by lia. destruct i; reflexivity. }
  assert (N : canon [mexp y 0 - mexp x 0] <> mone).
  { intros X. apply (f_equal (fun z => mexp z 0)) in X. rewrite canon_exp, mone_exp in X. unfold expo in X. cbn in X. lia. }
  destruct laws as (Irr & Tr & _ & Mul & One & _).
  apply One in N. apply (Mul _ _ x) in N. rewrite <- E in N.
  assert (E1 : mmul x mone = x) by (apply mono_ext; intros i; rewrite mmul_exp, mone_exp; lia). rewrite E1 in N.
  destruct Le as [->|Le]; [exact (Irr _ N)|exact (Irr _ (Tr _ _ _ Le N))].
Qed.
Theorem C100_divide_univariate : forall d (f : poly) divs fuel, clean f -> Forall clean divs ->
  svars 1 (val f) -> (forall g, In g divs -> svars 1 (val g)) ->
  (forall x, coeff (val f) x <> k0 -> mexp x 0 <= d) -> d < fuel ->
  divide Debug O fuel f divs <> NoFuel.
Proof.
  intros d f divs fuel Wf Wd Vf Vd Hd Len. apply (C100_divide_steps 1 f divs (map canon (box 1 d))); auto.
  - intros y x Vy Uy Nx Le. pose proof (one_var y x Vy (Vf x Nx) Le) as L. specialize (Hd x Nx).
    destruct (pad_mono 1 y Vy) as (l & Ll & <- & _ & Hb). apply in_map. apply box_in; [exact Ll|]. apply Hb.
    intros [|i]; [lia|]. rewrite (Vy (S i)) by lia. lia.
  - rewrite map_length, box_length. cbn. lia.
Qed.

(** with an order by total degree, f of total degree d in n variables: at most binom(n+d, n) iterations *)
Theorem C100_divide_graded : (forall y x, lt y x -> mtot y <= mtot x) ->
  forall n d (f : poly) divs fuel, clean f -> Forall clean divs ->
  svars n (val f) -> (forall g, In g divs -> svars n (val g)) ->
  (forall x, coeff (val f) x <> k0 -> mtot x <= d) -> choose (n + d) n <= fuel ->
  divide Debug O fuel f divs <> NoFuel.
Proof.
  intros Gr n d f divs fuel Wf Wd Vf Vd Hd Len. apply (C100_divide_steps n f divs (map canon (simplex n d))); auto.
  - intros y x Vy Uy Nx Le. specialize (Hd x Nx).
    assert (L : mtot y <= d) by (destruct Le as [->|Le]; [exact Hd|apply Gr in Le; lia]).
    destruct (pad_mono n y Vy) as (l & Ll & <- & Sl & _). apply in_map. apply simplex_in; [exact Ll|]. lia.
  - rewrite map_length, simplex_length. exact Len.
Qed.
End Divide.

(** the two graded orders of the crate *)
Theorem C100_graded_orders : (forall y x, olt grlex_spec y x -> mtot y <= mtot x) /\ (forall y x, olt grevlex_spec y x -> mtot y <= mtot x).
Proof. split; intros y x [H|[H _]]; lia. Qed.

(** ** Non-trivial instances *)
Local Notation qt n d l := (@mkterm (rat_impl Debug) (mkrat n%Z d%Z) l).
Lemma qt_wf n l : n <> 0%Z -> mwf l -> twf rat_spec (qt n 1 l).
Proof.
  intros N M. assert (W : rat_wf (mkrat n 1)) by (split; simpl; [lia|intros; contradiction]).
  split; [exact W|]. split; [|exact M]. simpl. intros E. apply den_zero_iff in E; [contradiction|reflexivity].
Qed.
Definition cube : poly (rat_impl Debug) := [qt 1 1 [3]].
Definition x_1 : poly (rat_impl Debug) := [qt 1 1 [1]; qt (-1) 1 []].
Example C100_ex_cube : pwf rat_spec cube /\ pwf rat_spec x_1 /\ svars 1 (ip rat_spec cube) /\ svars 1 (ip rat_spec x_1) /\
  (forall x, coeff (ip rat_spec cube) x <> k0 -> mexp x 0 <= 3).
Proof.
  assert (M : forall k, 0 < k <= 255 -> mwf [k]) by (intros k Hk; split; [intros X; cbn in X; lia|constructor; [lia|constructor]]).
  assert (W1 : pwf rat_spec cube) by (apply pwf_single, qt_wf; [discriminate|apply M; lia]).
  assert (W2 : pwf rat_spec x_1).
  { split; [constructor; [apply qt_wf; [discriminate|apply M; lia]|constructor; [apply qt_wf; [discriminate|apply mwf_nil]|constructor]]|].
    constructor; [intros [X|[]]; discriminate|constructor; [intros []|constructor]]. }
  split; [exact W1|]. split; [exact W2|]. split; [|split].
  - intros x X. apply (pwf_support rat_spec cube x W1) in X as (t & [<-|[]] & <-). intros i Hi. rewrite canon_exp. destruct i as [|[|i]]; [lia|reflexivity..].
  - intros x X. apply (pwf_support rat_spec x_1 x W2) in X as (t & [<-|[<-|[]]] & <-); intros i Hi; rewrite canon_exp; destruct i as [|[|i]]; try lia; reflexivity.
  - intros x X. apply (pwf_support rat_spec cube x W1) in X as (t & [<-|[]] & <-). rewrite canon_exp. cbn. lia.
Qed.
(** the bound for one variable is attained: x^3 by x - 1 takes exactly 4 iterations *)
Example C100_ex_tight : divide Debug lex_cmp 3 cube [x_1] = NoFuel /\
  divide Debug lex_cmp 4 cube [x_1] = Ok ([qt 1 1 []], [[qt 1 1 [2]; qt 1 1 [1]; qt 1 1 []]]).
Proof. split; reflexivity. Qed.
Example C100_ex_choose : choose (2 + 3) 2 = 10 /\ length (simplex 2 3) = 10 /\ length (box 2 3) = 16.
Proof. repeat split; reflexivity. Qed.
Example C100_ex_gcd : gcd_loop 5 Debug 5 8 = Ok 1%Z /\ gcd_loop 4 Debug 5 8 = NoFuel /\ (Z.abs 8 < fib (5 + 2))%Z.
Proof. repeat split; reflexivity. Qed.

Print Assumptions C100_gcd_steps.
Print Assumptions C100_gcd_91.
Print Assumptions C100_gcd_91_tight.
Print Assumptions C100_divide_steps.
Print Assumptions C100_divide_256.
Print Assumptions C100_divide_univariate.
Print Assumptions C100_divide_graded.
Print Assumptions C100_graded_orders.
