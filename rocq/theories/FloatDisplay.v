(** * Model of Display for Polynomial<f64> (src/poly/display.rs:75-98) and for Term<f64>.

    The text of an f64 is produced by the standard library.  It is a parameter here ([fshow]), as is the
    sign bit of NaN ([nan_sign]); what is assumed about the text is in [show_spec]. *)
From Verif Require Import Base BaseLemmas FieldIface MDegModel MonoSpec MDegProofs PolyModel DisplayModel DisplayProofs FloatModel.
Local Open Scope Z_scope.

(** ** Model *)
Record fdisp : Type := mkfdisp { fshow : float -> chars; nan_sign : bool }.
(** f64::is_sign_negative *)
Definition is_sign_negative (D : fdisp) (x : float) : bool :=
  match x with
  | S754_zero s | S754_infinity s | S754_finite s _ _ => s
  | S754_nan => nan_sign D
  end.
Definition f64_impl (e : fenv) : FieldImpl := float_impl binary64 e.
(** display.rs:61-73 *)
Definition f64_term_display (D : fdisp) (e : fenv) (t : term (f64_impl e)) : res chars :=
  term_display (fshow D : f64_impl e -> chars) t.
(** display.rs:75-98 *)
Definition f64_poly_display (D : fdisp) (e : fenv) (p : poly (f64_impl e)) : res chars :=
  match p with
  | [] => Ok [48]
  | t :: rest =>
      s <- f64_term_display D e t ;;
      foldM (fun (acc : chars) (t : term (f64_impl e)) =>
          if is_sign_negative D (coef t : float) then
            c <- @fneg (f64_impl e) (coef t) ;;
            s <- f64_term_display D e (mkterm (c : f64_impl e) (tdeg t)) ;;
            Ok (acc ++ 32 :: 45 :: 32 :: s)
          else
            s <- f64_term_display D e t ;;
            Ok (acc ++ 32 :: 43 :: 32 :: s)) rest s
  end.

(** ** The contract of core::fmt::Display for f64 *)
Definition is_fdigit (c : Z) : bool := is_digit c || (c =? 46).
Record show_spec (show : float -> chars) : Prop := {
  (** a nonnegative number is written with digits and a decimal point *)
  show_digits : forall x, valid binary64 x -> finite x = true -> SFopp (SFabs x) <> x ->
    forallb is_fdigit (show x) = true /\ exists c, In c (show x) /\ is_digit c = true;
  (** a negative number, and -0.0, is written with a minus sign *)
  show_minus : forall x, valid binary64 x -> finite x = true -> SFopp (SFabs x) = x -> show x = 45 :: show (SFopp x);
  show_inf : show (S754_infinity false) = [105; 110; 102];
  show_minus_inf : show (S754_infinity true) = [45; 105; 110; 102];
  show_nan : show S754_nan = [78; 97; 78];
  show_zero : show (S754_zero false) = [48];
  (** parsing the text gives the value back *)
  show_inj : forall x y, valid binary64 x -> valid binary64 y -> finite x = true -> finite y = true -> show x = show y -> x = y
}.

(** ** Lemmas *)
(** characters of a coefficient: digits, point, minus, "inf" *)
Definition is_fcoef (c : Z) : bool := is_fdigit c || (c =? 45) || (c =? 105) || (c =? 110) || (c =? 102).
Lemma fdigit_fcoef c : is_fdigit c = true -> is_fcoef c = true.
Proof. intros H. unfold is_fcoef. rewrite H. reflexivity. Qed.
Lemma letter_not_fcoef c : In c letters \/ c = 88 -> is_fcoef c = false.
Proof. intros [H| ->]; [|reflexivity]. repeat (destruct H as [<-|H]; [reflexivity|]). destruct H. Qed.
Lemma letter_str_nofcoef cs v : Forall (fun c => is_fcoef c = false) cs -> nohead is_fcoef (letter_str cs v).
Proof.
  revert v. induction cs as [|c cs IH]; intros v H; [exact I|]. inversion H; subst. cbn [letter_str]. unfold var_str.
  destruct (Nat.eqb (v 0%nat) 1); [assumption|]. destruct (Nat.eqb (v 0%nat) 0); [|assumption]. apply IH. assumption.
Qed.
Lemma mdeg_str_nofcoef v : nohead is_fcoef (mdeg_str v).
Proof.
  unfold mdeg_str. destruct (Nat.leb (length v) 5); [|reflexivity].
  apply letter_str_nofcoef. apply Forall_forall. intros c H. apply letter_not_fcoef. left. exact H.
Qed.
Lemma SFeqb_fone x : SFeqb x (fone binary64) = true -> x = fone binary64.
Proof.
  change (fone binary64) with (S754_finite false 4503599627370496 (-52)).
  unfold SFeqb, SFcompare. destruct x as [s|s| |[] m ex]; try discriminate; try (destruct s; discriminate).
  destruct (Z.compare_spec ex (-52)); try discriminate. subst.
  destruct (Pcompare m 4503599627370496 Eq) eqn:C; try discriminate. apply Pcompare_Eq_eq in C. subst. reflexivity.
Qed.
Lemma SFeqb_fmone x : SFeqb x (SFopp (fone binary64)) = true -> x = SFopp (fone binary64).
Proof.
  change (SFopp (fone binary64)) with (S754_finite true 4503599627370496 (-52)).
  unfold SFeqb, SFcompare. destruct x as [s|s| |[] m ex]; try discriminate; try (destruct s; discriminate).
  destruct (Z.compare_spec ex (-52)); try discriminate. subst.
  destruct (Pcompare m 4503599627370496 Eq) eqn:C; try discriminate. apply Pcompare_Eq_eq in C. subst. reflexivity.
Qed.

Section Display.
Variables (D : fdisp) (e : fenv).
Hypothesis S : show_spec (fshow D).
Notation F := (f64_impl e).
Notation show := (fshow D).

(** a value with a sign *)
Definition fgood (x : float) : Prop := valid binary64 x /\ x <> S754_nan.
Lemma fgood_opp x : fgood x -> fgood (SFopp x).
Proof. destruct x; intros [V N]; (split; [exact V|]); try discriminate; congruence. Qed.
Lemma show_fcoef x : fgood x -> forallb is_fcoef (show x) = true /\ exists c, In c (show x) /\ c <> 45.
Proof.
  intros [V N]. destruct x as [s|s| |s m ex]; [| |congruence|].
  - destruct s.
    + rewrite (show_minus _ S) by (assumption || reflexivity). cbn [SFopp negb]. rewrite (show_zero _ S).
      split; [reflexivity|]. exists 48. split; [right; left; reflexivity|discriminate].
    + rewrite (show_zero _ S). split; [reflexivity|]. exists 48. split; [left; reflexivity|discriminate].
  - destruct s; [rewrite (show_minus_inf _ S)|rewrite (show_inf _ S)]; (split; [reflexivity|]); exists 105;
      (split; [cbn; auto|discriminate]).
  - destruct s.
    + rewrite (show_minus _ S) by (assumption || reflexivity). cbn [SFopp negb].
      destruct (show_digits _ S (S754_finite false m ex)) as (A & c & B & C); [exact V|reflexivity|discriminate|].
      split; [cbn [forallb]; apply andb_true_iff; split; [reflexivity|exact (forallb_impl _ _ _ fdigit_fcoef A)]|].
      exists c. split; [right; exact B|]. intros ->. discriminate.
    + destruct (show_digits _ S (S754_finite false m ex)) as (A & c & B & C); [exact V|reflexivity|discriminate|].
      split; [exact (forallb_impl _ _ _ fdigit_fcoef A)|]. exists c. split; [exact B|]. intros ->. discriminate.
Qed.
Lemma show_finite_noi x : fgood x -> finite x = true -> ~ In 105 (show x).
Proof.
  intros [V N] Fx. destruct x as [s|s| |s m ex]; try discriminate.
  - destruct s; [rewrite (show_minus _ S) by (assumption || reflexivity); cbn [SFopp negb]|]; rewrite (show_zero _ S); intros H;
      repeat (destruct H as [H|H]; [discriminate|]); destruct H.
  - assert (A : ~ In 105 (show (S754_finite false m ex))).
    { destruct (show_digits _ S (S754_finite false m ex)) as (A & _); [exact V|reflexivity|discriminate|].
      intros H. rewrite forallb_forall in A. specialize (A _ H). discriminate. }
    destruct s; [|exact A]. rewrite (show_minus _ S) by (assumption || reflexivity). cbn [SFopp negb].
    intros [H|H]; [discriminate|exact (A H)].
Qed.
Lemma show_good_inj x y : fgood x -> fgood y -> show x = show y -> x = y.
Proof.
  intros Gx Gy E. destruct (finite x) eqn:Fx, (finite y) eqn:Fy.
  - apply (show_inj _ S); try assumption; [apply Gx|apply Gy].
  - exfalso. destruct y as [s|s| |s m ex]; try discriminate; [|apply (proj2 Gy); reflexivity].
    apply (show_finite_noi x Gx Fx). rewrite E. destruct s; [rewrite (show_minus_inf _ S)|rewrite (show_inf _ S)]; cbn; auto.
  - exfalso. destruct x as [s|s| |s m ex]; try discriminate; [|apply (proj2 Gx); reflexivity].
    apply (show_finite_noi y Gy Fy). rewrite <- E. destruct s; [rewrite (show_minus_inf _ S)|rewrite (show_inf _ S)]; cbn; auto.
  - destruct x as [s|s| |s m ex]; try discriminate; [|exfalso; apply (proj2 Gx); reflexivity].
    destruct y as [s'|s'| |s' m' ex']; try discriminate; [|exfalso; apply (proj2 Gy); reflexivity].
    destruct s, s'; rewrite ?(show_minus_inf _ S), ?(show_inf _ S) in E; congruence.
Qed.

Definition fpre (t : term F) : chars :=
  match tdeg t with
  | [] => show (coef t : float)
  | _ => if SFeqb (coef t : float) (fone binary64) then []
         else if SFeqb (coef t : float) (SFopp (fone binary64)) then [45] else show (coef t : float)
  end.
Definition fterm_str (t : term F) : chars := fpre t ++ mdeg_str (tdeg t).
Lemma f64_term_ok (t : term F) : u8s (tdeg t) -> f64_term_display D e t = Ok (fterm_str t).
Proof.
  intros U. unfold f64_term_display, term_display, fterm_str, fpre. pose proof (mdeg_display_ok _ U) as E.
  destruct t as [c d]. cbn [coef tdeg] in *. destruct d as [|x d].
  - cbn [mdeg_is_zero]. rewrite app_nil_r. reflexivity.
  - cbn [mdeg_is_zero]. rewrite E. cbn [bind].
    change (@feqb F c f1) with (SFeqb c (fone binary64)). change (@fneg F f1) with (Ok (SFopp (fone binary64))). cbn [bind].
    change (@feqb F c (SFopp (fone binary64))) with (SFeqb c (SFopp (fone binary64))).
    destruct (SFeqb c (fone binary64)); [reflexivity|]. destruct (SFeqb c (SFopp (fone binary64))); reflexivity.
Qed.
Definition ftgood (t : term F) : Prop := fgood (coef t : float) /\ mwf (tdeg t).
Lemma fpre_fcoef (t : term F) : ftgood t -> forallb is_fcoef (fpre t) = true.
Proof.
  intros [G _]. destruct (show_fcoef _ G) as [A _]. unfold fpre. destruct (tdeg t); [exact A|].
  destruct (SFeqb _ _); [reflexivity|]. destruct (SFeqb _ _); [reflexivity|exact A].
Qed.
Lemma fterm_inj (t t' : term F) : ftgood t -> ftgood t' -> fterm_str t = fterm_str t' -> t = t'.
Proof.
  intros G G' E. unfold fterm_str in E.
  apply (span_eq is_fcoef) in E; [|apply fpre_fcoef; exact G|apply fpre_fcoef; exact G'|apply mdeg_str_nofcoef|apply mdeg_str_nofcoef].
  destruct G as [W [C U]], G' as [W' [C' U']].
  destruct E as [E1 E2]. apply mdeg_str_inj in E2; try assumption.
  destruct t as [c d], t' as [c' d']. cbn [coef tdeg] in *. subst d'. f_equal. unfold fpre in E1. cbn [coef tdeg] in E1.
  destruct d as [|x d]; [apply show_good_inj; assumption|].
  destruct (show_fcoef _ W) as (_ & k & K1 & K2), (show_fcoef _ W') as (_ & k' & K1' & K2').
  destruct (SFeqb c (fone binary64)) eqn:A1; [apply SFeqb_fone in A1|]; (destruct (SFeqb c' (fone binary64)) eqn:A2; [apply SFeqb_fone in A2|]).
  - congruence.
  - exfalso. destruct (SFeqb c' (SFopp (fone binary64))); [discriminate|]. rewrite <- E1 in K1'. destruct K1'.
  - exfalso. destruct (SFeqb c (SFopp (fone binary64))); [discriminate|]. rewrite E1 in K1. destruct K1.
  - destruct (SFeqb c (SFopp (fone binary64))) eqn:A3; [apply SFeqb_fmone in A3|]; (destruct (SFeqb c' (SFopp (fone binary64))) eqn:A4; [apply SFeqb_fmone in A4|]).
    + congruence.
    + exfalso. rewrite <- E1 in K1'. destruct K1' as [<-|[]]. apply K2'. reflexivity.
    + exfalso. rewrite E1 in K1. destruct K1 as [<-|[]]. apply K2. reflexivity.
    + apply show_good_inj; assumption.
Qed.
Lemma fterm_tame (t : term F) : ftgood t -> tame (fterm_str t) = true.
Proof.
  intros G. unfold fterm_str. apply tame_app; [|apply mdeg_str_tame; apply G].
  apply tame_nospace. intros c H ->. pose proof (fpre_fcoef t G) as P. rewrite forallb_forall in P.
  specialize (P _ H). discriminate.
Qed.

(** the text of a term after the first *)
Definition fopp_term (t : term F) : term F := mkterm (SFopp (coef t : float) : F) (tdeg t).
Definition fnext (t : term F) : chars :=
  if is_sign_negative D (coef t : float) then 32 :: 45 :: 32 :: fterm_str (fopp_term t) else 32 :: 43 :: 32 :: fterm_str t.
Lemma f64_poly_ok (t : term F) (l : list (term F)) : u8s (tdeg t) -> Forall (fun t : term F => u8s (tdeg t)) l ->
  f64_poly_display D e (t :: l) = Ok (fterm_str t ++ concat (map fnext l)).
Proof.
  intros U H. unfold f64_poly_display. rewrite f64_term_ok by exact U. cbn [bind]. generalize (fterm_str t). clear t U.
  induction H as [|t l U H IH]; intros acc; cbn [foldM map concat]; [rewrite app_nil_r; reflexivity|].
  unfold fnext. destruct (is_sign_negative D (coef t)).
  - change (@fneg F (coef t)) with (Ok (SFopp (coef t : float) : F)). cbn [bind]. rewrite f64_term_ok by exact U. cbn [bind].
    rewrite IH. rewrite <- app_assoc. reflexivity.
  - rewrite f64_term_ok by exact U. cbn [bind]. rewrite IH. rewrite <- app_assoc. reflexivity.
Qed.
Lemma fnext_sep l : sep (concat (map fnext l)).
Proof.
  destruct l as [|t l]; [left; reflexivity|]. right. cbn [map concat]. unfold fnext at 1.
  destruct (is_sign_negative D (coef t)); cbn [app]; eexists; eexists; (split; [reflexivity|reflexivity]).
Qed.
Lemma ftgood_opp t : ftgood t -> ftgood (fopp_term t).
Proof. intros [G M]. split; [apply fgood_opp; exact G|exact M]. Qed.
Lemma SFopp_inj x y : SFopp x = SFopp y -> x = y.
Proof. destruct x as [[]|[]| |[] ? ?], y as [[]|[]| |[] ? ?]; cbn; intros E; congruence. Qed.
Lemma fnext_inj l l' : Forall ftgood l -> Forall ftgood l' -> concat (map fnext l) = concat (map fnext l') -> l = l'.
Proof.
  intros H; revert l'. induction H as [|t l G Hl IH]; intros l' H' E.
  - destruct H' as [|t' l']; [reflexivity|]. cbn [map concat] in E. unfold fnext at 1 in E. destruct (is_sign_negative D (coef t')); discriminate.
  - destruct H' as [|t' l' G' Hl']; [cbn [map concat] in E; unfold fnext at 1 in E; destruct (is_sign_negative D (coef t)); discriminate|].
    cbn [map concat] in E. pose proof (fnext_sep l) as P. pose proof (fnext_sep l') as P'. unfold fnext at 1 3 in E.
    assert (X : forall u u' v v', tame u = true -> tame u' = true -> sep v -> sep v' -> (32 :: u) ++ v = (32 :: u') ++ v' -> u = u' /\ v = v').
    { intros u u' v v' T T' Sv Sv' Q. injection Q as Q. apply tame_split; assumption. }
    destruct (is_sign_negative D (coef t)), (is_sign_negative D (coef t')); cbn [app] in E; try discriminate;
      injection E as E; apply tame_split in E; try assumption; try (apply fterm_tame; try apply ftgood_opp; assumption);
      destruct E as [E1 E2]; apply fterm_inj in E1; try assumption; try (apply ftgood_opp; assumption); rewrite (IH l' Hl' E2); f_equal; [|exact E1].
    destruct t as [c d], t' as [c' d']. unfold fopp_term in E1. cbn [coef tdeg] in E1. injection E1 as E1 ->. f_equal. exact (SFopp_inj _ _ E1).
Qed.
Lemma fu8 l : Forall ftgood l -> Forall (fun t : term F => u8s (tdeg t)) l.
Proof. apply Forall_impl. intros t G. apply G. Qed.
Definition fnonzero (t : term F) : Prop := forall s, (coef t : float) <> S754_zero s.
Lemma f64_poly_not0 t l : ftgood t -> fnonzero t -> Forall ftgood l -> f64_poly_display D e (t :: l) <> Ok [48].
Proof.
  intros G N H E. rewrite f64_poly_ok in E by (apply G || apply fu8; exact H). injection E as E.
  change [48] with ([48] ++ []) in E. apply tame_split in E; [|apply fterm_tame; exact G|reflexivity|apply fnext_sep|left; reflexivity].
  destruct E as [E _]. change ([48] = fterm_str t) with ([48] = fterm_str t) in E.
  assert (E0 : fterm_str (mkterm (S754_zero false : F) []) = [48]) by (unfold fterm_str, fpre; cbn [coef tdeg]; rewrite (show_zero _ S); reflexivity).
  rewrite <- E0 in E. apply fterm_inj in E; [|exact G|split; [split; [reflexivity|discriminate]|split; [discriminate|constructor]]].
  apply (N false). rewrite E. reflexivity.
Qed.
Lemma f64_poly_inj (p q : poly F) s : Forall (fun t => ftgood t /\ fnonzero t) p -> Forall (fun t => ftgood t /\ fnonzero t) q ->
  f64_poly_display D e p = Ok s -> f64_poly_display D e q = Ok s -> p = q.
Proof.
  intros Hp Hq. assert (FG : forall l, Forall (fun t => ftgood t /\ fnonzero t) l -> Forall ftgood l) by (intros l; apply Forall_impl; tauto).
  destruct Hp as [|t p [G N] Hp], Hq as [|t' q [G' N'] Hq]; intros E E'.
  - reflexivity.
  - exfalso. injection E as <-. exact (f64_poly_not0 t' q G' N' (FG _ Hq) E').
  - exfalso. injection E' as <-. exact (f64_poly_not0 t p G N (FG _ Hp) E).
  - rewrite f64_poly_ok in E by (apply G || apply fu8; apply FG; assumption).
    rewrite f64_poly_ok in E' by (apply G' || apply fu8; apply FG; assumption).
    rewrite <- E' in E. injection E as E. apply tame_split in E; try (apply fterm_tame; assumption); try apply fnext_sep.
    destruct E as [E1 E2]. apply fterm_inj in E1; try assumption. apply fnext_inj in E2; try (apply FG; assumption). congruence.
Qed.
End Display.
