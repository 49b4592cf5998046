(** * C90: the Display of Polynomial<f64>.

    Strings are lists of Unicode code points. *)
From Coq Require Import QArith Qcanon.
From Verif Require Import Base BaseLemmas IntModel RatModel FieldIface IntProofs RatProofs MDegModel MonoSpec MDegProofs PolyModel DisplayModel DisplayProofs FloatModel FloatExact FloatDisplay PropFloat.
Local Open Scope Z_scope.

(** Display never panics, NaN and infinities included, whatever the text of a number is *)
Theorem C90_total : forall D e (p : poly (f64_impl e)),
  Forall (fun t : term (f64_impl e) => Forall (fun d => (d <= 255)%nat) (tdeg t)) p -> exists s, f64_poly_display D e p = Ok s.
Proof.
  intros D e p H. destruct H as [|t l U H]; [eexists; reflexivity|]. eexists. apply f64_poly_ok; assumption.
Qed.
(** the terms are printed from left to right, with the sign of every term but the first in front *)
Theorem C90_append : forall D e (p : poly (f64_impl e)) (t : term (f64_impl e)) s u, p <> [] ->
  Forall (fun t : term (f64_impl e) => Forall (fun d => (d <= 255)%nat) (tdeg t)) (p ++ [t]) ->
  f64_poly_display D e p = Ok s ->
  f64_term_display D e (if is_sign_negative D (coef t : float) then mkterm (SFopp (coef t : float) : f64_impl e) (tdeg t) else t) = Ok u ->
  f64_poly_display D e (p ++ [t]) = Ok (s ++ (if is_sign_negative D (coef t : float) then [32; 45; 32] else [32; 43; 32]) ++ u).
Proof.
  intros D e p t s u N U E Eu. destruct p as [|t0 p]; [congruence|]. apply Forall_app in U. destruct U as [U Ut].
  inversion Ut as [|? ? U1 _]; subst. inversion U as [|? ? U0 Up]; subst.
  rewrite f64_poly_ok in E by assumption. injection E as <-. cbn [app].
  rewrite f64_poly_ok; [|exact U0|apply Forall_app; split; assumption].
  rewrite map_app, concat_app. cbn [map concat]. rewrite app_nil_r. rewrite <- app_assoc. do 3 f_equal. unfold fnext.
  destruct (is_sign_negative D (coef t)).
  - rewrite f64_term_ok in Eu by exact U1. injection Eu as <-. reflexivity.
  - rewrite f64_term_ok in Eu by exact U1. injection Eu as <-. reflexivity.
Qed.

(** the sign bit decides: negative numbers, -0.0 and -inf are printed as " - " and the text of their absolute value, 0.0 and inf with " + " *)
Theorem C90_sign : forall D e (p : poly (f64_impl e)) (t : term (f64_impl e)) s u, p <> [] ->
  Forall (fun t : term (f64_impl e) => Forall (fun d => (d <= 255)%nat) (tdeg t)) (p ++ [t]) -> (coef t : float) <> S754_nan ->
  f64_poly_display D e p = Ok s -> f64_term_display D e (mkterm (SFabs (coef t : float) : f64_impl e) (tdeg t)) = Ok u ->
  (SFopp (SFabs (coef t : float)) = (coef t : float) -> f64_poly_display D e (p ++ [t]) = Ok (s ++ [32; 45; 32] ++ u)) /\
  (SFabs (coef t : float) = (coef t : float) -> f64_poly_display D e (p ++ [t]) = Ok (s ++ [32; 43; 32] ++ u)).
Proof.
  intros D e p [c d] s u N U Nn E Eu. cbn [coef tdeg] in *.
  assert (G : forall b, is_sign_negative D c = b -> (if b then SFopp c else c) = SFabs c ->
    f64_poly_display D e (p ++ [mkterm (c : f64_impl e) d]) = Ok (s ++ (if b then [32; 45; 32] else [32; 43; 32]) ++ u)).
  { intros b Hb Hc. pose proof (C90_append D e p (mkterm (c : f64_impl e) d) s u N U E) as A. cbn [coef tdeg] in A. rewrite Hb in A.
    apply A. destruct b; rewrite <- Hc in Eu; exact Eu. }
  destruct c as [b|b| |b m x]; [| |contradiction Nn; reflexivity|]; (split; intros Q; destruct b; try discriminate Q).
  all: first [exact (G true eq_refl eq_refl) | exact (G false eq_refl eq_refl)].
Qed.

(** what the terms of a displayed polynomial must satisfy *)
Definition fprintable {e} (p : poly (f64_impl e)) : Prop :=
  Forall (fun t : term (f64_impl e) =>
    valid binary64 (coef t) /\ (coef t : float) <> S754_nan /\ (forall s, (coef t : float) <> S754_zero s) /\ mwf (tdeg t)) p.
Lemma fprintable_good e (p : poly (f64_impl e)) : fprintable p -> Forall (fun t => ftgood e t /\ fnonzero e t) p.
Proof. apply Forall_impl. intros t (A & B & C & G). split; [split; [split; assumption|assumption]|exact C]. Qed.
(** two polynomials without NaN, term by term, can be told apart by their display *)
Theorem C90_injective : forall D e (p q : poly (f64_impl e)) s, show_spec (fshow D) -> fprintable p -> fprintable q ->
  f64_poly_display D e p = Ok s -> f64_poly_display D e q = Ok s -> p = q.
Proof. intros D e p q s S P Q. apply (f64_poly_inj D e S); apply fprintable_good; assumption. Qed.
Theorem C90_zero : forall D e (p : poly (f64_impl e)), show_spec (fshow D) -> fprintable p -> f64_poly_display D e p = Ok [48] -> p = [].
Proof. intros D e p S P E. apply (C90_injective D e p [] [48] S P); [constructor|exact E|reflexivity]. Qed.
(** with zero coefficients (which float arithmetic can produce, see C85) this is false *)
Theorem C90_zero_coefficient_refuted : forall D e, show_spec (fshow D) ->
  f64_poly_display D e [mkterm (S754_zero false : f64_impl e) []] = f64_poly_display D e [].
Proof. intros D e S. cbn. unfold f64_term_display, term_display. cbn. rewrite (show_zero _ S). reflexivity. Qed.

(** ** Agreement with Polynomial<Rational> *)
(** integers up to 2^53 are printed like integers *)
Definition shows_integers (show : float -> chars) : Prop :=
  forall x n, stands binary64 x (intq n) -> x <> S754_zero true -> Z.abs n <= 2 ^ 53 -> show x = int_display n.
(** the same integer coefficients and degrees *)
Definition same_term m e (t : term (f64_impl e)) (u : term (rat_impl m)) : Prop :=
  tdeg t = tdeg u /\ exists n, Z.abs n <= 2 ^ 53 /\ n <> 0 /\ stands binary64 (coef t : float) (intq n) /\ coef u = mkrat n 1.

Lemma intq_inj n k : intq n = intq k -> n = k.
Proof. rewrite !intq_dy. unfold dy. intros E. apply Q2Qc_eq_iff in E. apply dyq_eq in E. exact E. Qed.
Lemma stands_one : stands binary64 (fone binary64) (intq 1).
Proof. split; [reflexivity|]. split; [reflexivity|]. apply Qc_is_canon. reflexivity. Qed.
Lemma intq_opp n : (- intq n)%Qc = intq (- n).
Proof. rewrite !intq_dy. apply dy_opp. Qed.
Lemma SFeqb_int x y n k : stands binary64 x (intq n) -> stands binary64 y (intq k) -> SFeqb x y = (n =? k).
Proof.
  intros X Y. unfold SFeqb. rewrite (compare_exact binary64 good64 x y _ _ X Y).
  destruct (Z.eqb_spec n k) as [->|N].
  - destruct (Qccompare (intq k) (intq k)) eqn:C; [reflexivity| |];
    [apply (Qclt_alt) in C|apply (Qcgt_alt) in C]; exfalso; revert C; apply Qlt_irrefl.
  - destruct (Qccompare (intq n) (intq k)) eqn:C; try reflexivity. apply Qceq_alt in C. apply intq_inj in C. contradiction.
Qed.
Lemma stands_sign x n : stands binary64 x (intq n) -> n <> 0 -> (forall D, is_sign_negative D x = (n <? 0)) /\ (forall s, x <> S754_zero s).
Proof.
  intros X N.
  assert (Z0 : stands binary64 (S754_zero false) (intq 0)) by (split; [reflexivity|split; [reflexivity|apply Qc_is_canon; reflexivity]]).
  assert (P : forall s, x <> S754_zero s).
  { intros s ->. destruct X as (_ & _ & E). apply N. apply intq_inj. rewrite <- E. apply Qc_is_canon. reflexivity. }
  split; [|exact P]. intros D. pose proof (compare_exact binary64 good64 _ _ _ _ X Z0) as C.
  destruct X as (V & Fx & E). destruct x as [s|s| |s m ex]; try discriminate; [exfalso; exact (P s eq_refl)|].
  cbn [is_sign_negative]. assert (Q : (intq n ?= intq 0)%Qc = (n ?= 0)).
  { unfold Qccompare. rewrite !intq_dy. unfold dy. cbn [this Q2Qc]. rewrite !Qred_correct. unfold dyq. cbn [Qpower].
    unfold Qcompare. cbn. rewrite !Z.mul_1_r. reflexivity. }
  rewrite Q in C. cbn [SFcompare] in C. unfold Z.ltb. destruct s; injection C as <-; reflexivity.
Qed.
Lemma same_term_str m e D (t : term (f64_impl e)) (u : term (rat_impl m)) : shows_integers (fshow D) -> same_term m e t u ->
  fterm_str D e t = term_str u.
Proof.
  intros SI (Ed & n & L & N & X & Ec). destruct t as [c d], u as [c' d']. cbn [coef tdeg] in *. subst c' d'.
  unfold fterm_str, term_str, fpre, pre_str. cbn [coef tdeg as_debug].
  destruct (stands_sign c n X N) as [_ P].
  assert (E1 : fshow D c = rat_display (mkrat n 1)).
  { rewrite (SI c n X (P true) L). unfold rat_display. cbn. destruct (Z.eqb_spec n 0); [contradiction|reflexivity]. }
  f_equal. destruct d as [|x d]; [exact E1|].
  rewrite (SFeqb_int _ _ _ _ X stands_one).
  assert (O : stands binary64 (SFopp (fone binary64)) (intq (-1))) by (change (intq (-1)) with (intq (- (1))); rewrite <- intq_opp; apply stands_opp; exact stands_one).
  rewrite (SFeqb_int _ _ _ _ X O). rewrite E1.
  assert (R : forall k, rat_eqb (mkrat n 1) (mkrat k 1) = (n =? k)).
  { intros k. destruct (rat_eqb (mkrat n 1) (mkrat k 1)) eqn:B; symmetry.
    - apply rat_eqb_eq in B. injection B as ->. apply Z.eqb_refl.
    - apply Z.eqb_neq. intros ->. assert (rat_eqb (mkrat k 1) (mkrat k 1) = true) by (apply rat_eqb_eq; reflexivity). congruence. }
  rewrite !R. reflexivity.
Qed.
(** polynomials with the same integer coefficients up to 2^53 are printed the same over f64 and Rational *)
Theorem C90_rational_agreement : forall m D e (p : poly (f64_impl e)) (q : poly (rat_impl m)), shows_integers (fshow D) ->
  Forall2 (same_term m e) p q -> Forall (fun t : term (f64_impl e) => Forall (fun d => (d <= 255)%nat) (tdeg t)) p ->
  f64_poly_display D e p = poly_display m q.
Proof.
  intros m D e p q SI H U. destruct H as [|t u p q Htu H]; [reflexivity|]. inversion U as [|? ? Ut Up]; subst.
  assert (Uu : u8s (tdeg u)) by (rewrite <- (proj1 Htu); exact Ut).
  rewrite f64_poly_ok by assumption. rewrite poly_display_cons by exact Uu. rewrite (same_term_str m e D t u SI Htu).
  generalize (term_str u). clear t u Htu U Ut Uu. revert Up. induction H as [|t u p q Htu H IH]; intros Up acc; cbn [map concat foldM].
  - rewrite app_nil_r. reflexivity.
  - inversion Up as [|? ? Ut Up']; subst. assert (Uu : u8s (tdeg u)) by (rewrite <- (proj1 Htu); exact Ut).
    assert (E : tail_step m acc u = Ok (acc ++ fnext D e t)).
    { unfold tail_step, fnext. pose proof Htu as (Ed & n & L & N & X & Ec). destruct (stands_sign _ n X N) as [Sg _]. rewrite Sg, Ec.
      unfold int_is_neg. cbn [numer]. destruct (Z.ltb_spec n 0) as [Ln|Ln].
      - unfold rat_neg, int_neg. cbn [numer denom]. rewrite chk64_in by (unfold in64, i64_min, i64_max; change (2 ^ 53) with 9007199254740992 in L; lia).
        cbn [bind]. rewrite rat_term_display_ok by exact Uu. cbn [bind]. do 5 f_equal. symmetry. apply same_term_str; [exact SI|].
        split; [exact Ed|]. exists (- n). split; [lia|]. split; [lia|]. split; [|reflexivity]. cbn [coef fopp_term]. rewrite <- intq_opp.
        apply stands_opp. exact X.
      - rewrite rat_term_display_ok by exact Uu. cbn [bind]. do 5 f_equal. symmetry. apply same_term_str; assumption. }
    rewrite E. cbn [bind]. rewrite <- (IH Up' (acc ++ fnext D e t)). rewrite <- app_assoc. reflexivity.
Qed.

(** ** Non-vacuity *)
(** a text function meeting both contracts: integers in decimal, other numbers as mantissa and
    exponent (the standard library prints the shortest decimal fraction that reads back instead) *)
Definition int_part (m : positive) (e : Z) : option Z :=
  if 0 <=? e then Some (Zpos m * 2 ^ e) else if Zpos m mod 2 ^ (- e) =? 0 then Some (Zpos m / 2 ^ (- e)) else None.
Definition ex_body (m : positive) (e : Z) : chars :=
  match int_part m e with Some n => dec_string n | None => dec_string (Zpos m) ++ 46 :: dec_string (- e) end.
Definition ex_show (x : float) : chars :=
  match x with
  | S754_zero s => (if s then [45] else []) ++ [48]
  | S754_infinity s => (if s then [45] else []) ++ [105; 110; 102]
  | S754_nan => [78; 97; 78]
  | S754_finite s m e => (if s then [45] else []) ++ ex_body m e
  end.
Definition ex_disp : fdisp := mkfdisp ex_show false.
Lemma int_part_some m e n : int_part m e = Some n -> dy (Zpos m) e = intq n /\ 0 < n.
Proof.
  unfold int_part. rewrite intq_dy. destruct (Z.leb_spec 0 e) as [L|L].
  - intros E. assert (n = Zpos m * 2 ^ e) as -> by congruence. assert (P : 0 < 2 ^ e) by (apply Z.pow_pos_nonneg; lia).
    split; [|nia]. rewrite dy_shift by exact L. reflexivity.
  - destruct (Z.eqb_spec (Zpos m mod 2 ^ (- e)) 0) as [M|M]; [|discriminate]. intros E. assert (n = Zpos m / 2 ^ (- e)) as -> by congruence.
    assert (P : 0 < 2 ^ (- e)) by (apply Z.pow_pos_nonneg; lia). pose proof (Z.div_mod (Zpos m) (2 ^ (- e)) ltac:(lia)) as DM.
    rewrite M, Z.add_0_r in DM. split; [|nia]. rewrite DM at 1. rewrite Z.mul_comm, dy_shift by lia. f_equal. lia.
Qed.
Lemma int_part_int m e n : dy (Zpos m) e = intq n -> int_part m e = Some n.
Proof.
  intros E. destruct (int_part m e) as [k|] eqn:I.
  - apply int_part_some in I. destruct I as [I _]. rewrite I in E. apply intq_inj in E. congruence.
  - exfalso. unfold int_part in I. destruct (Z.leb_spec 0 e) as [L|L]; [discriminate|].
    destruct (Z.eqb_spec (Zpos m mod 2 ^ (- e)) 0) as [M|M]; [discriminate|]. rewrite intq_dy in E.
    apply (dy_eq (Zpos m) e n 0 e) in E; [|lia|lia]. rewrite Z.sub_diag, Z.pow_0_r, Z.mul_1_r in E. apply M.
    rewrite E. replace (0 - e) with (- e) by lia. apply Z.mod_mul. assert (P : 0 < 2 ^ (- e)) by (apply Z.pow_pos_nonneg; lia). lia.
Qed.
Lemma ex_body_digits m e : forallb is_fdigit (ex_body m e) = true /\ exists c, In c (ex_body m e) /\ is_digit c = true.
Proof.
  assert (K : forall n, 0 <= n -> forallb is_fdigit (dec_string n) = true /\ exists c, In c (dec_string n) /\ is_digit c = true).
  { intros n Hn. destruct (dec_ok n Hn) as (_ & A & B). split; [apply (forallb_impl is_digit); [intros c Hc; unfold is_fdigit; rewrite Hc; reflexivity|exact A]|].
    destruct (dec_string n) as [|c s]; [congruence|]. exists c. split; [left; reflexivity|]. cbn in A. apply andb_true_iff in A. tauto. }
  unfold ex_body. destruct (int_part m e) as [n|] eqn:I.
  - apply K. apply int_part_some in I. lia.
  - destruct (K (Zpos m) ltac:(lia)) as (A & c & B & C). assert (L : e < 0).
    { unfold int_part in I. destruct (Z.leb_spec 0 e); [discriminate|assumption]. }
    destruct (K (- e) ltac:(lia)) as (A' & _). split.
    + rewrite forallb_app. cbn [forallb]. rewrite A, A'. reflexivity.
    + exists c. split; [apply in_or_app; left; exact B|exact C].
Qed.
Lemma dec_no46 n : 0 <= n -> ~ In 46 (dec_string n).
Proof. intros H I. destruct (dec_ok n H) as (_ & D & _). rewrite forallb_forall in D. specialize (D _ I). discriminate. Qed.
Lemma ex_body_inj m e m' e' : valid binary64 (S754_finite false m e) -> valid binary64 (S754_finite false m' e') ->
  ex_body m e = ex_body m' e' -> m = m' /\ e = e'.
Proof.
  intros V V' E. unfold ex_body in E.
  destruct (int_part m e) as [n|] eqn:I, (int_part m' e') as [n'|] eqn:I'.
  - apply int_part_some in I, I'. apply dec_inj in E; [|lia|lia]. subst n'. destruct I as [I _], I' as [I' _].
    assert (X : stands binary64 (S754_finite false m e) (intq n)) by (split; [exact V|split; [reflexivity|exact I]]).
    assert (X' : stands binary64 (S754_finite false m' e') (intq n)) by (split; [exact V'|split; [reflexivity|exact I']]).
    pose proof (SFeqb_int _ _ _ _ X X') as C. rewrite Z.eqb_refl in C. unfold SFeqb, SFcompare in C.
    destruct (Z.compare_spec e e') as [->|?|?]; try discriminate. destruct (Pcompare m m' Eq) eqn:P; try discriminate.
    apply Pcompare_Eq_eq in P. auto.
  - exfalso. apply int_part_some in I. apply (dec_no46 n); [lia|]. rewrite E. apply in_or_app. right. left. reflexivity.
  - exfalso. apply int_part_some in I'. apply (dec_no46 n'); [lia|]. rewrite <- E. apply in_or_app. right. left. reflexivity.
  - assert (L : e < 0) by (unfold int_part in I; destruct (Z.leb_spec 0 e); [discriminate|assumption]).
    assert (L' : e' < 0) by (unfold int_part in I'; destruct (Z.leb_spec 0 e'); [discriminate|assumption]).
    apply (span_eq is_digit) in E; [|apply (dec_ok (Zpos m)); lia|apply (dec_ok (Zpos m')); lia|reflexivity|reflexivity].
    destruct E as [E1 E2]. apply dec_inj in E1; [|lia|lia]. injection E1 as ->. injection E2 as E2. apply dec_inj in E2; [|lia|lia]. split; [reflexivity|lia].
Qed.
Lemma dec_no45 m e : ~ In 45 (ex_body m e).
Proof. intros H. destruct (ex_body_digits m e) as (D & _). rewrite forallb_forall in D. specialize (D _ H). discriminate. Qed.
Lemma ex_body_zero m e : ex_body m e <> [48].
Proof.
  unfold ex_body. destruct (int_part m e) as [n|] eqn:I.
  - apply int_part_some in I. change [48] with (dec_string 0). intros E. apply dec_inj in E; lia.
  - intros E. assert (L : e < 0) by (unfold int_part in I; destruct (Z.leb_spec 0 e); [discriminate|assumption]).
    assert (H : In 46 [48]) by (rewrite <- E; apply in_or_app; right; left; reflexivity). destruct H as [H|[]]. discriminate.
Qed.
Example C90_example_contract : show_spec (fshow ex_disp) /\ shows_integers (fshow ex_disp).
Proof.
  cbn [fshow ex_disp]. split.
  - constructor; try reflexivity.
    + intros [[]|[]| |[] m e] V Fx N; try discriminate; try (exfalso; apply N; reflexivity).
      * split; [reflexivity|]. exists 48. split; [left; reflexivity|reflexivity].
      * exact (ex_body_digits m e).
    + intros [[]|[]| |[] m e] V Fx N; try discriminate; reflexivity.
    + intros x y Vx Vy Fx Fy E. destruct x as [s|s| |s m e], y as [s'|s'| |s' m' e']; try discriminate; cbn [ex_show] in E.
      * destruct s, s'; try discriminate; reflexivity.
      * exfalso. destruct s, s'; cbn [app] in E.
        -- injection E as E. symmetry in E. exact (ex_body_zero _ _ E).
        -- apply (dec_no45 m' e'). rewrite <- E. left. reflexivity.
        -- discriminate.
        -- symmetry in E. exact (ex_body_zero _ _ E).
      * exfalso. destruct s, s'; cbn [app] in E.
        -- injection E as E. exact (ex_body_zero _ _ E).
        -- discriminate.
        -- apply (dec_no45 m e). rewrite E. left. reflexivity.
        -- exact (ex_body_zero _ _ E).
      * destruct s, s'; cbn [app] in E.
        -- injection E as E. apply ex_body_inj in E; [destruct E; congruence|exact Vx|exact Vy].
        -- exfalso. apply (dec_no45 m' e'). rewrite <- E. left. reflexivity.
        -- exfalso. apply (dec_no45 m e). rewrite E. left. reflexivity.
        -- apply ex_body_inj in E; [destruct E; congruence|exact Vx|exact Vy].
  - intros x n X Nz L. destruct x as [s|s| |s m e].
    + destruct s; [congruence|]. destruct X as (_ & _ & E). assert (n = 0) as ->; [|reflexivity].
      apply intq_inj. rewrite <- E. apply Qc_is_canon. reflexivity.
    + destruct X as (_ & X & _). discriminate.
    + destruct X as (_ & X & _). discriminate.
    + destruct X as (_ & _ & E). cbn [fval] in E. cbn [ex_show]. unfold int_display. destruct s; cbn [cond_Zopp] in E.
      * assert (E' : dy (Zpos m) e = intq (- n)).
        { rewrite <- intq_opp. rewrite <- E. rewrite dy_opp. reflexivity. }
        apply int_part_int in E'. pose proof (int_part_some _ _ _ E') as [_ P]. unfold ex_body. rewrite E'.
        destruct (Z.ltb_spec n 0); [reflexivity|lia].
      * apply int_part_int in E. pose proof (int_part_some _ _ _ E) as [_ P]. unfold ex_body. rewrite E.
        destruct (Z.ltb_spec n 0); [lia|reflexivity].
Qed.
(** -x² - 3xy + 1: coefficients -1, -3, 1 *)
Definition ex_env : fenv := mkenv (fun x _ => x) false.
Definition ex_fpoly : poly (f64_impl ex_env) :=
  [mkterm (S754_finite true 4503599627370496 (-52) : f64_impl ex_env) [2]%nat;
   mkterm (S754_finite true 6755399441055744 (-51) : f64_impl ex_env) [1; 1]%nat;
   mkterm (S754_finite false 4503599627370496 (-52) : f64_impl ex_env) []].
Definition ex_rpoly : poly (rat_impl Debug) :=
  [mkterm (F := rat_impl Debug) (mkrat (-1) 1) [2]%nat; mkterm (F := rat_impl Debug) (mkrat (-3) 1) [1; 1]%nat; mkterm (F := rat_impl Debug) (mkrat 1 1) []].
Example C90_example : fprintable ex_fpoly /\ Forall2 (same_term Debug ex_env) ex_fpoly ex_rpoly /\
  f64_poly_display ex_disp ex_env ex_fpoly = Ok [45; 120; 178; 32; 45; 32; 51; 120; 121; 32; 43; 32; 49].
Proof.
  assert (I : forall x n, valid binary64 x -> finite x = true -> fval x = intq n -> stands binary64 x (intq n)) by (intros; repeat split; assumption).
  split; [|split].
  - repeat apply Forall_cons; [| | |apply Forall_nil]; (split; [reflexivity|split; [discriminate|split; [discriminate|split; [discriminate|repeat constructor; lia]]]]).
  - repeat apply Forall2_cons; [| | |apply Forall2_nil]; (split; [reflexivity|]).
    + exists (-1). split; [cbn; lia|]. split; [lia|]. split; [|reflexivity]. apply I; [reflexivity|reflexivity|apply Qc_is_canon; reflexivity].
    + exists (-3). split; [cbn; lia|]. split; [lia|]. split; [|reflexivity]. apply I; [reflexivity|reflexivity|apply Qc_is_canon; reflexivity].
    + exists 1. split; [cbn; lia|]. split; [lia|]. split; [|reflexivity]. apply I; [reflexivity|reflexivity|apply Qc_is_canon; reflexivity].
  - vm_compute. reflexivity.
Qed.
(** the two polynomials are printed the same, by the theorem *)
Example C90_example_agreement : f64_poly_display ex_disp ex_env ex_fpoly = poly_display Debug ex_rpoly.
Proof.
  apply C90_rational_agreement; [apply C90_example_contract|apply C90_example|].
  apply Forall_forall. intros t H. repeat (destruct H as [<-|H]; [repeat constructor; lia|]). destruct H.
Qed.
(** infinities and NaN are printed too: inf x + NaN *)
Example C90_example_nonfinite : f64_poly_display ex_disp ex_env
  [mkterm (S754_infinity false : f64_impl ex_env) [1]%nat; mkterm (S754_nan : f64_impl ex_env) []] =
  Ok [105; 110; 102; 120; 32; 43; 32; 78; 97; 78].
Proof. reflexivity. Qed.

Print Assumptions C90_total.
Print Assumptions C90_append.
Print Assumptions C90_sign.
Print Assumptions C90_injective.
Print Assumptions C90_zero.
Print Assumptions C90_zero_coefficient_refuted.
Print Assumptions C90_rational_agreement.
