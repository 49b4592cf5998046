(** * Properties of the Display implementations: C62-C64, C74, C75.

    Strings are lists of Unicode code points. *)
From Coq Require Import QArith.
From Verif Require Import Base BaseLemmas IntModel RatModel FieldIface IntProofs RatProofs MDegModel MonoSpec MDegProofs PolyModel DisplayModel DisplayProofs.
Local Open Scope Z_scope.

(** ** C62: superscript *)
(** the ten superscript digits, U+2070, U+00B9, U+00B2, U+00B3, U+2074 .. U+2079 *)
Definition glyphs : chars := [8304; 185; 178; 179; 8308; 8309; 8310; 8311; 8312; 8313].
(** [s] writes [n] in decimal with these glyphs, without leading zeros *)
Definition writes_superscript (n : nat) (s : chars) : Prop :=
  exists ds : list nat,
    s = map (fun d => nth d glyphs 0) ds /\ (forall d, In d ds -> (d < 10)%nat) /\
    fold_left (fun acc d => (10 * acc + d)%nat) ds 0%nat = n /\ (ds = [0%nat] \/ exists d ds', ds = d :: ds' /\ d <> 0%nat).

Lemma glyph_sup d : (d < 10)%nat -> nth d glyphs 0 = superscript_digit (Z.of_nat d).
Proof. intros H. do 10 (destruct d as [|d]; [reflexivity|]). lia. Qed.
Lemma value_nat (s : chars) : forallb is_digit s = true -> forall a : nat,
  Z.of_nat (fold_left (fun acc d => (10 * acc + d)%nat) (map (fun c => Z.to_nat (c - 48)) s) a) =
  fold_left (fun acc c => 10 * acc + (c - 48)) s (Z.of_nat a).
Proof.
  induction s as [|c s IH]; intros D a; [reflexivity|]. cbn [forallb] in D. apply andb_true_iff in D. destruct D as [D1 D2].
  cbn [map fold_left]. rewrite IH by exact D2. f_equal. unfold is_digit in D1. rewrite andb_true_iff, !Z.leb_le in D1.
  rewrite Nat2Z.inj_add, Z2Nat.id by lia. lia.
Qed.

Theorem C62_superscript_decimal : forall n : nat, (n <= 255)%nat ->
  exists s, superscript n = Ok s /\ writes_superscript n s.
Proof.
  intros n Hn. destruct (superscript_ok n Hn) as (E & _ & NZ). exists (sup n). split; [exact E|].
  destruct (dec_ok (Z.of_nat n) ltac:(lia)) as (V & D & N).
  exists (map (fun c => Z.to_nat (c - 48)) (dec_string (Z.of_nat n))).
  assert (DD : forall c, In c (dec_string (Z.of_nat n)) -> 48 <= c <= 57).
  { intros c Hc. rewrite forallb_forall in D. specialize (D c Hc). unfold is_digit in D. rewrite andb_true_iff, !Z.leb_le in D. lia. }
  split; [|split; [|split]].
  - unfold sup. rewrite map_map. apply map_ext_in. intros c Hc. specialize (DD c Hc). rewrite glyph_sup by lia. rewrite Z2Nat.id by lia. reflexivity.
  - intros d Hd. apply in_map_iff in Hd. destruct Hd as (c & <- & Hc). specialize (DD c Hc). lia.
  - apply Nat2Z.inj. rewrite value_nat by exact D. exact V.
  - destruct (Nat.eq_dec n 0) as [->|H0]; [left; reflexivity|]. right. destruct (NZ H0) as (c & s & Es & C). rewrite Es in *.
    exists (Z.to_nat (c - 48)), (map (fun c => Z.to_nat (c - 48)) s). split; [reflexivity|]. specialize (DD c (or_introl eq_refl)). lia.
Qed.
Theorem C62_superscript_injective : forall (n k : nat) s, (n <= 255)%nat -> (k <= 255)%nat ->
  superscript n = Ok s -> superscript k = Ok s -> n = k.
Proof.
  intros n k s Hn Hk E E'. rewrite (proj1 (superscript_ok n Hn)) in E. rewrite (proj1 (superscript_ok k Hk)) in E'.
  injection E as E. injection E' as E'. apply sup_inj. congruence.
Qed.
Example C62_example : superscript 205 = Ok [178; 8304; 8309] /\ superscript 10 = Ok [185; 8304].
Proof. split; reflexivity. Qed.

(** ** C63: multidegrees *)
Theorem C63_display_total : forall a : mdeg, mwf a -> exists s, mdeg_display a = Ok s.
Proof. intros a [_ U]. exists (mdeg_str a). apply mdeg_display_ok. exact U. Qed.
Theorem C63_display_injective : forall (a b : mdeg) s, mwf a -> mwf b ->
  mdeg_display a = Ok s -> mdeg_display b = Ok s -> a = b.
Proof.
  intros a b s [Ca Ua] [Cb Ub] E E'. rewrite mdeg_display_ok in E, E' by assumption.
  apply mdeg_str_inj; try assumption. congruence.
Qed.
(** without trailing zeros removed it would not be: the canonical form is needed *)
Example C63_needs_canonical : mdeg_display [1%nat] = mdeg_display [1; 0]%nat.
Proof. reflexivity. Qed.
Example C63_example :
  mdeg_display [2; 0; 1]%nat = Ok [120; 178; 122] /\
  mdeg_display [1; 0; 0; 0; 0; 0; 12]%nat = Ok [88; 91; 49; 44; 32; 48; 44; 32; 48; 44; 32; 48; 44; 32; 48; 44; 32; 48; 44; 32; 49; 50; 93].
Proof. split; reflexivity. Qed.

(** ** C64: the names the fn_vars macro gives to variables and the letters Display prints *)
(** variable letter followed by its exponent, which is left out when 1 *)
Definition shows_power (c : Z) (d : nat) (s : chars) : Prop :=
  exists e, s = c :: e /\ (d = 1%nat -> e = []) /\ (d <> 1%nat -> writes_superscript d e).

Lemma shows_var c d : (1 <= d <= 255)%nat -> shows_power c d (var_str c d).
Proof.
  intros H. unfold shows_power, var_str. destruct (Nat.eqb_spec d 1) as [->|N].
  - exists []. split; [reflexivity|]. split; [reflexivity|congruence].
  - destruct (Nat.eqb_spec d 0); [lia|]. exists (sup d). split; [reflexivity|]. split; [congruence|]. intros _.
    destruct (C62_superscript_decimal d ltac:(lia)) as (s & E & W). rewrite (proj1 (superscript_ok d ltac:(lia))) in E. congruence.
Qed.
Lemma macro_display m v d : (1 <= d <= 255)%nat ->
  poly_display m (macro_var m v d) = Ok (mdeg_str (repeat 0%nat (macro_idx v) ++ [d])).
Proof.
  intros H. unfold macro_var, poly_var, term_var, poly_term, mdeg_var. destruct (Nat.eqb_spec d 0) as [|N]; [lia|].
  unfold poly_display. cbn [foldM].
  assert (U : u8s (tdeg (term_monic (F := rat_impl m) (repeat 0%nat (macro_idx v) ++ [d])))).
  { cbn. apply Forall_app. split; [apply Forall_forall; intros x Hx; apply repeat_spec in Hx; lia|apply Forall_cons; [lia|apply Forall_nil]]. }
  rewrite rat_term_display_ok by exact U. cbn [bind]. f_equal. unfold term_str, pre_str. cbn [tdeg as_debug coef term_monic].
  destruct (macro_idx v); reflexivity.
Qed.

Theorem C64_xyz_agree : forall m v d, v = Vx \/ v = Vy \/ v = Vz -> (1 <= d <= 255)%nat ->
  exists s, poly_display m (macro_var m v d) = Ok s /\ shows_power (name_char v) d s.
Proof.
  intros m v d Hv Hd. exists (var_str (name_char v) d). split; [|apply shows_var; exact Hd]. rewrite macro_display by exact Hd. f_equal.
  destruct Hv as [->|[->| ->]]; unfold mdeg_str; cbn [macro_idx repeat app length Nat.leb letter_str letters expo nth name_char];
    unfold expo; cbn [nth]; unfold var_str; cbn [Nat.eqb negb app]; rewrite ?app_nil_r; reflexivity.
Qed.
(** the macro variable w is printed with the letter of u, and u with the letter of v *)
Theorem C64_w_printed_as_u : forall m d, (1 <= d <= 255)%nat ->
  exists s, poly_display m (macro_var m Vw d) = Ok s /\ shows_power (name_char Vu) d s.
Proof.
  intros m d Hd. exists (var_str 117 d). split; [|apply shows_var; exact Hd]. rewrite macro_display by exact Hd. f_equal.
  unfold mdeg_str; cbn [macro_idx repeat app length Nat.leb letter_str letters]; unfold expo; cbn [nth].
  unfold var_str at 1 2 3 5; cbn [Nat.eqb negb app]. rewrite ?app_nil_r. reflexivity.
Qed.
Theorem C64_u_printed_as_v : forall m d, (1 <= d <= 255)%nat ->
  exists s, poly_display m (macro_var m Vu d) = Ok s /\ shows_power (name_char Vv) d s.
Proof.
  intros m d Hd. exists (var_str 118 d). split; [|apply shows_var; exact Hd]. rewrite macro_display by exact Hd. f_equal.
  unfold mdeg_str; cbn [macro_idx repeat app length Nat.leb letter_str letters]; unfold expo; cbn [nth].
  unfold var_str at 1 2 3 4; cbn [Nat.eqb negb app]. rewrite ?app_nil_r. reflexivity.
Qed.
(** the macro variable v is printed in the list notation *)
Theorem C64_v_printed_as_list : forall m d, (1 <= d <= 255)%nat ->
  exists ds, poly_display m (macro_var m Vv d) =
    Ok ([88; 91; 48; 44; 32; 48; 44; 32; 48; 44; 32; 48; 44; 32; 48; 44; 32] ++ ds ++ [93]) /\ ds = dec_string (Z.of_nat d).
Proof. intros m d Hd. eexists. split; [|reflexivity]. rewrite macro_display by exact Hd. reflexivity. Qed.
(** no multidegree is printed with the letter w *)
Theorem C64_letter_w_never_printed : forall (a : mdeg) s, mwf a -> mdeg_display a = Ok s -> ~ In (name_char Vw) s.
Proof.
  intros a s [_ U] E. rewrite mdeg_display_ok in E by exact U. injection E as <-. cbn [name_char]. unfold mdeg_str.
  destruct (Nat.leb (length a) 5).
  - intros H. apply letter_str_chars in H; [|intros i; apply u8_expo; exact U].
    destruct H as [H|H]; [|discriminate]. repeat (destruct H as [H|H]; [discriminate|]). destruct H.
  - intros [H|H]; [discriminate|]. unfold vec_debug in H. destruct H as [H|H]; [discriminate|].
    apply in_app_or in H. destruct H as [H|[H|[]]]; [|discriminate].
    assert (G : forall l : list nat, ~ In 119 (join (map (fun d => dec_string (Z.of_nat d)) l))).
    { clear. induction l as [|x l IH]; [intros []|].
      assert (D : ~ In 119 (dec_string (Z.of_nat x))).
      { intros H. destruct (dec_ok (Z.of_nat x) ltac:(lia)) as (_ & D & _). rewrite forallb_forall in D. specialize (D _ H). discriminate. }
      destruct l as [|y l]; [exact D|]. cbn [map join] in *. intros H. apply in_app_or in H. destruct H as [H|[H|[H|H]]]; try discriminate; [exact (D H)|exact (IH H)]. }
    exact (G a H).
Qed.
(** so "every variable prints under the name it was created with" is false *)
Theorem C64_names_agree_refuted : ~ forall m v d, (1 <= d <= 255)%nat ->
  exists s, poly_display m (macro_var m v d) = Ok s /\ In (name_char v) s.
Proof.
  intros H. destruct (H Debug Vw 1%nat ltac:(lia)) as (s & E & I). rewrite macro_display in E by lia.
  injection E as <-. cbn in I. destruct I as [I|[]]. discriminate.
Qed.
Example C64_example : poly_display Debug (macro_var Debug Vw 2) = Ok [117; 178].
Proof. rewrite macro_display by lia. reflexivity. Qed.

(** ** C74: rationals and terms *)
Theorem C74_rational_display_injective : forall a b : rat, rat_wf a -> rat_wf b -> rat_display a = rat_display b -> a = b.
Proof. exact rat_display_inj. Qed.
Theorem C74_term_display_injective : forall m (t t' : term (rat_impl m)) s,
  rat_wf (coef t : rat) -> rat_wf (coef t' : rat) -> mwf (tdeg t) -> mwf (tdeg t') ->
  rat_term_display m t = Ok s -> rat_term_display m t' = Ok s -> t = t'.
Proof.
  intros m t t' s W W' M M' E E'. rewrite rat_term_display_ok in E by apply M. rewrite rat_term_display_ok in E' by apply M'.
  apply term_str_inj; try assumption. congruence.
Qed.
Theorem C74_term_display_total : forall m (t : term (rat_impl m)), mwf (tdeg t) -> exists s, rat_term_display m t = Ok s.
Proof. intros m t M. exists (term_str t). apply rat_term_display_ok. apply M. Qed.
(** the sign of a printed rational is the sign of its value *)
Theorem C74_rational_display_sign : forall r : rat, rat_wf r -> (exists s, rat_display r = 45 :: s) <-> (rat_val r < 0)%Q.
Proof.
  intros r W. rewrite rat_display_form by exact W.
  assert (Q : (rat_val r < 0)%Q <-> numer r < 0) by (unfold rat_val, Qlt; cbn; lia). rewrite Q.
  pose proof (int_display_sign (numer r)) as S. destruct (int_display_digit (numer r)) as (k & K & _).
  destruct (int_display (numer r)) as [|c s]; [destruct K|]. cbn [nohead] in S. cbn [app]. split.
  - intros [s' E]. injection E as -> _. destruct (Z.lt_ge_cases (numer r) 0) as [L|L]; [exact L|]. apply S in L. discriminate.
  - intros L. destruct (Z.eqb_spec c 45) as [->|N]; [eexists; reflexivity|]. exfalso. destruct S as [S _]. specialize (S eq_refl). lia.
Qed.
Example C74_example :
  rat_display (mkrat (-12) 35) = [45; 49; 50; 47; 51; 53] /\ rat_wf (mkrat (-12) 35) /\
  rat_term_display Debug (mkterm (F := rat_impl Debug) (mkrat (-1) 1) [0; 3]%nat) = Ok [45; 121; 179].
Proof. split; [reflexivity|]. split; [split; [reflexivity|discriminate]|reflexivity]. Qed.

(** ** C75: polynomials *)
(** what the terms of a displayed polynomial must satisfy: coefficients are nonzero, have positive
    denominators and an i64 numerator, multidegrees are in canonical form *)
Definition printable {m} (p : poly (rat_impl m)) : Prop :=
  Forall (fun t : term (rat_impl m) =>
    0 < denom (coef t : rat) /\ numer (coef t : rat) <> 0 /\ in64 (numer (coef t : rat)) /\ mwf (tdeg t)) p.
Lemma printable_good m (p : poly (rat_impl m)) : printable p -> Forall (fun t => tgood t /\ numer (coef t : rat) <> 0) p.
Proof.
  apply Forall_impl. intros t (H1 & H2 & H3 & H4). split; [|exact H2]. split; [|exact H4]. split; [|exact H3].
  split; [exact H1|contradiction].
Qed.

(** two polynomials, term by term, can be told apart by their display *)
Theorem C75_polynomial_display_injective : forall m (p q : poly (rat_impl m)) s, printable p -> printable q ->
  poly_display m p = Ok s -> poly_display m q = Ok s -> p = q.
Proof. intros m p q s P Q. apply poly_display_inj; apply printable_good; assumption. Qed.
(** Display fails exactly when a term after the first has the coefficient numerator i64::MIN *)
Theorem C75_polynomial_display_panics : forall p : poly (rat_impl Debug), printable p ->
  (poly_display Debug p = Panic Overflow <-> Exists (fun t : term (rat_impl Debug) => numer (coef t : rat) = i64_min) (tl p)) /\
  ((exists s, poly_display Debug p = Ok s) <-> ~ Exists (fun t : term (rat_impl Debug) => numer (coef t : rat) = i64_min) (tl p)).
Proof.
  intros p P. assert (G : Forall tgood p) by (apply printable_good in P; revert P; apply Forall_impl; intros t [H _]; exact H).
  pose proof (poly_display_defined p G) as D. pose proof (poly_display_panics p G) as N. split; split.
  - intros E. destruct D as [[s D]|[_ D]]; [congruence|exact D].
  - exact N.
  - intros [s E] X. apply N in X. congruence.
  - intros X. destruct D as [D|[_ D]]; [exact D|contradiction].
Qed.
(** the zero polynomial is the only one printed as 0 *)
Theorem C75_zero_display : forall m (p : poly (rat_impl m)), printable p -> poly_display m p = Ok [48] -> p = [].
Proof. intros m p P E. apply (C75_polynomial_display_injective m p [] [48] P); [constructor|exact E|reflexivity]. Qed.

Definition ex_poly : poly (rat_impl Debug) :=
  [mkterm (F := rat_impl Debug) (mkrat (-1) 1) [2]%nat; mkterm (F := rat_impl Debug) (mkrat (-3) 2) [1; 1]%nat; mkterm (F := rat_impl Debug) (mkrat 1 1) [0; 0; 0; 0; 0; 0; 4]%nat; mkterm (F := rat_impl Debug) (mkrat 5 1) []].
Example C75_example_printable : printable ex_poly.
Proof.
  repeat apply Forall_cons; [| | | |apply Forall_nil];
  (split; [reflexivity|split; [discriminate|split; [split; discriminate|split; [discriminate|repeat constructor; lia]]]]).
Qed.
(** -x² - 3/2xy + X[0, 0, 0, 0, 0, 0, 4] + 5 *)
Example C75_example : poly_display Debug ex_poly =
  Ok ([45; 120; 178] ++ [32; 45; 32] ++ [51; 47; 50; 120; 121] ++ [32; 43; 32] ++
      [88; 91; 48; 44; 32; 48; 44; 32; 48; 44; 32; 48; 44; 32; 48; 44; 32; 48; 44; 32; 52; 93] ++ [32; 43; 32] ++ [53]).
Proof. reflexivity. Qed.

Print Assumptions C62_superscript_decimal.
Print Assumptions C62_superscript_injective.
Print Assumptions C63_display_total.
Print Assumptions C63_display_injective.
Print Assumptions C64_xyz_agree.
Print Assumptions C64_w_printed_as_u.
Print Assumptions C64_u_printed_as_v.
Print Assumptions C64_v_printed_as_list.
Print Assumptions C64_letter_w_never_printed.
Print Assumptions C64_names_agree_refuted.
Print Assumptions C74_rational_display_injective.
Print Assumptions C74_term_display_injective.
Print Assumptions C74_term_display_total.
Print Assumptions C74_rational_display_sign.
Print Assumptions C75_polynomial_display_injective.
Print Assumptions C75_polynomial_display_panics.
Print Assumptions C75_zero_display.
