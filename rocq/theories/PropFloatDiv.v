(** * Property C81: division and Groebner bases over f32 and f64 need not terminate. *)
From Verif Require Import Base BaseLemmas FieldIface MDegModel OrdModel PolyModel CompModel FloatModel.
From Coq Require Import Lia.
Local Open Scope nat_scope.

Section Generic.
Context (m : mode) {F : FieldImpl} (O : ord_impl).
(** a quotient that is zero leaves the whole state as it was *)
Lemma zero_quotient (f g : poly F) rest lf lg c d :
  leading_term O f = Ok (Some lf) -> leading_term O g = Ok (Some lg) ->
  term_is_zero lf = false -> term_is_zero lg = false ->
  fdiv (coef lf) (coef lg) = Ok c -> feqb c f0 = true ->
  mdeg_checked_sub (tdeg lf) (tdeg lg) = Some d ->
  forall fuel q quots rem, divide_loop m O fuel f (g :: rest) (q :: quots) rem = NoFuel.
Proof.
  intros Ef Eg Zf Zg Ec Zc Ed. induction fuel as [|n IH]; intros q quots rem; cbn [divide_loop]; rewrite Ef; cbn [bind].
  - reflexivity.
  - cbn [try_divisors]. rewrite Eg. cbn [bind]. unfold term_try_div. rewrite Zf, Zg, Ec. cbn [bind]. rewrite Ed.
    cbn [bind]. assert (Za : term_is_zero (mkterm c d) = true) by exact Zc.
    unfold poly_add_term, poly_from_term. rewrite Za.
    assert (Eq : (if poly_is_zero q then Ok (@poly_zero F) else Ok q) = Ok q) by (destruct q; reflexivity).
    rewrite Eq. cbn [bind]. unfold term_mul_poly, poly_mul_term. rewrite Za. cbn [orb bind].
    unfold poly_sub, poly_neg, poly_zero. cbn [mapM bind]. unfold poly_add. cbn [foldM bind]. apply IH.
Qed.
End Generic.

Section Float.
Context (t : fmt) (e : fenv).
Notation F := (float_impl t e).
Notation pt := (prec t).
Notation em := (emax t).
Definition ft (c : float) (d : mdeg) : term F := @mkterm F c d.

(** the quotient of the leading coefficients underflows: no amount of steps is enough *)
Theorem C81_underflow_diverges : forall m O (f g : poly F) rest lf lg d,
  leading_term O f = Ok (Some lf) -> leading_term O g = Ok (Some lg) ->
  SFeqb (coef lf) fzero = false -> SFeqb (coef lg) fzero = false ->
  mdeg_checked_sub (tdeg lf) (tdeg lg) = Some d ->
  SFeqb (SFdiv pt em (coef lf) (coef lg)) fzero = true ->
  forall fuel, divide m O fuel f (g :: rest) = NoFuel.
Proof.
  intros m O f g rest lf lg d Ef Eg Zf Zg Ed Zc fuel. unfold divide. cbn [length repeat].
  exact (zero_quotient m O f g rest lf lg _ d Ef Eg Zf Zg eq_refl Zc Ed fuel _ _ _).
Qed.

(** ** One variable, one term *)
Lemma lead1 O (s : term F) : leading_term O [s] = Ok (Some s).
Proof. reflexivity. Qed.
Lemma sub_self k : mdeg_checked_sub [S k] [S k] = Some [].
Proof. unfold mdeg_checked_sub. cbn [mdeg_is_zero zip_longest checked_sub_loop]. rewrite Nat.compare_refl. reflexivity. Qed.
Lemma add_nil m k : mdeg_add m [S k] [] = Ok [S k].
Proof. reflexivity. Qed.

(** the coefficient left over after one step *)
Definition residue (c b : float) : float := SFadd pt em c (SFopp (SFmul pt em b (SFdiv pt em c b))).
Lemma add_term_total (q : poly F) (s : term F) : exists q', poly_add_term q s = Ok q'.
Proof.
  unfold poly_add_term. destruct (poly_is_zero q); [eauto|]. destruct (term_is_zero s); [eauto|].
  destruct (position _ q) as [i|] eqn:P; [|eauto].
  destruct (position_Some _ _ _ P) as (l1 & x & l2 & -> & <- & _). unfold vget. assert (V : nth_error (l1 ++ x :: l2) (length l1) = Some x) by (rewrite nth_error_app2, Nat.sub_diag by lia; reflexivity). rewrite V. cbn [nth_error]. cbn [bind fadd float_impl].
  destruct (term_is_zero _); eauto.
Qed.
Definition never (c b : float) (k : nat) : Prop := forall m O fuel q rest quots rem,
  divide_loop m O fuel [ft c [S k]] ([ft b [S k]] :: rest) (q :: quots) rem = NoFuel.
Lemma never_zero c b k : SFeqb c fzero = false -> SFeqb b fzero = false ->
  SFeqb (SFdiv pt em c b) fzero = true -> never c b k.
Proof.
  intros Zc Zb Z m O fuel q rest quots rem.
  exact (zero_quotient m O [ft c [S k]] [ft b [S k]] rest (ft c [S k]) (ft b [S k]) _ [] eq_refl eq_refl Zc Zb eq_refl Z
    (sub_self k) fuel q quots rem).
Qed.
Lemma never_step c b k : SFeqb c fzero = false -> SFeqb b fzero = false ->
  SFeqb (SFdiv pt em c b) fzero = false -> SFeqb (SFmul pt em b (SFdiv pt em c b)) fzero = false ->
  SFeqb (residue c b) fzero = false -> never (residue c b) b k -> never c b k.
Proof.
  intros Zc Zb Zd Zm Zr H m O fuel q rest quots rem. destruct fuel as [|n]; [reflexivity|].
  cbn [divide_loop]. rewrite lead1. cbn [bind try_divisors]. rewrite lead1. cbn [bind].
  assert (Tc : term_is_zero (ft c [S k]) = false) by exact Zc.
  assert (Tb : term_is_zero (ft b [S k]) = false) by exact Zb.
  unfold term_try_div. rewrite Tc, Tb. cbn [bind coef tdeg ft]. change (fdiv (f := F) c b) with (@Ok float (SFdiv pt em c b)).
  cbn [bind]. rewrite sub_self. cbn [bind].
  destruct (add_term_total q (mkterm (SFdiv pt em c b : F) [])) as [q' ->]. cbn [bind].
  unfold term_mul_poly, poly_mul_term. change (term_is_zero (mkterm (SFdiv pt em c b : F) [])) with (SFeqb (SFdiv pt em c b) fzero).
  rewrite Zd. cbn [orb poly_is_zero mapM]. unfold term_mul. rewrite Tb.
  change (term_is_zero (mkterm (SFdiv pt em c b : F) [])) with (SFeqb (SFdiv pt em c b) fzero). rewrite Zd.
  cbn [orb coef tdeg ft]. change (fmul (f := F) b (SFdiv pt em c b)) with (@Ok float (SFmul pt em b (SFdiv pt em c b))).
  cbn [bind]. rewrite add_nil. cbn [bind]. unfold poly_sub, poly_neg. cbn [mapM]. unfold term_neg. cbn [coef tdeg].
  change (fneg (f := F) (SFmul pt em b (SFdiv pt em c b))) with (@Ok float (SFopp (SFmul pt em b (SFdiv pt em c b)))).
  cbn [bind]. unfold poly_add. cbn [foldM]. unfold poly_add_term at 1. cbn [poly_is_zero].
  assert (To : term_is_zero (mkterm (SFopp (SFmul pt em b (SFdiv pt em c b)) : F) [S k]) = false).
  { unfold term_is_zero. cbn [coef feqb float_impl]. revert Zm. destruct (SFmul pt em b (SFdiv pt em c b)) as [[]|[]| |[] ? ?]; exact (fun x => x). }
  rewrite To. cbn [position tdeg ft]. cbn [mdeg_eqb]. rewrite Nat.eqb_refl. cbn [andb vget nth_error bind coef].
  change (fadd (f := F) (coef (ft c [S k])) (SFopp (SFmul pt em b (SFdiv pt em c b)))) with (@Ok float (residue c b)). cbn [bind tdeg ft].
  assert (Tr : term_is_zero (mkterm (residue c b : F) [S k]) = false) by exact Zr. rewrite Tr. cbn [list_set bind].
  apply H.
Qed.
(** run until the quotient is zero *)
Fixpoint stuck (n : nat) (c b : float) : bool :=
  match n with
  | O => false
  | S n' =>
      let q := SFdiv pt em c b in
      negb (SFeqb c fzero) && negb (SFeqb b fzero) &&
      (SFeqb q fzero || (negb (SFeqb (SFmul pt em b q) fzero) && negb (SFeqb (residue c b) fzero) && stuck n' (residue c b) b))
  end.
Lemma stuck_never n c b k : stuck n c b = true -> never c b k.
Proof.
  revert c. induction n as [|n IH]; intros c; cbn [stuck]; [discriminate|].
  rewrite !Bool.andb_true_iff, Bool.orb_true_iff, !Bool.andb_true_iff, !Bool.negb_true_iff. intros [[Zc Zb] H].
  destruct (SFeqb (SFdiv pt em c b) fzero) eqn:Zd; [apply never_zero; assumption|].
  destruct H as [H|[[Zm Zr] H]]; [discriminate|]. apply never_step; auto.
Qed.

(** a leading coefficient that is infinite or NaN *)
Lemma nan_never b k : SFeqb b fzero = false -> never S754_nan b k.
Proof.
  intros Zb m O fuel. induction fuel as [|n IH]; intros q rest quots rem; [reflexivity|].
  (* one step leads to the same state *)
  cbn [divide_loop]. rewrite lead1. cbn [bind try_divisors]. rewrite lead1. cbn [bind].
  assert (Tb : term_is_zero (ft b [S k]) = false) by exact Zb.
  unfold term_try_div. rewrite Tb. cbn [term_is_zero coef ft feqb float_impl SFeqb SFcompare bind tdeg fdiv].
  change (SFdiv pt em S754_nan b) with S754_nan. rewrite sub_self. cbn [bind].
  destruct (add_term_total q (@mkterm F S754_nan [])) as [q' ->]. cbn [bind].
  unfold term_mul_poly, poly_mul_term. cbn [term_is_zero coef feqb float_impl SFeqb SFcompare orb poly_is_zero mapM].
  unfold term_mul. rewrite Tb. cbn [term_is_zero coef feqb float_impl SFeqb SFcompare orb fmul ft tdeg bind].
  rewrite add_nil. assert (Em : SFmul pt em b S754_nan = S754_nan) by (destruct b; reflexivity). rewrite Em.
  cbn [bind]. unfold poly_sub, poly_neg. cbn [mapM]. unfold term_neg. cbn [coef tdeg fneg float_impl SFopp bind].
  unfold poly_add. cbn [foldM]. unfold poly_add_term at 1.
  cbn [poly_is_zero term_is_zero coef feqb float_impl SFeqb SFcompare position tdeg ft mdeg_eqb].
  rewrite Nat.eqb_refl. cbn [andb vget nth_error bind coef fadd SFadd term_is_zero feqb SFeqb SFcompare list_set].
  apply IH.
Qed.
Theorem C81_nonfinite_diverges : forall m O c b k rest, finite c = false -> SFeqb b fzero = false ->
  forall fuel, divide m O fuel [ft c [S k]] ([ft b [S k]] :: rest) = NoFuel.
Proof.
  intros m O c b k rest Fc Zb fuel. unfold divide. cbn [length repeat]. revert m O fuel rest.
  assert (N : never c b k).
  { destruct c as [s|s| |s mm ee]; try discriminate Fc; [|apply nan_never; exact Zb].
    destruct b as [s'|s'| |s' mb eb]; [destruct s'; discriminate Zb| | |].
    - apply never_step; [destruct s; reflexivity|exact Zb|reflexivity| |reflexivity|apply nan_never; exact Zb].
      destruct s, s'; reflexivity.
    - apply never_step; try reflexivity; [destruct s; reflexivity|apply nan_never; exact Zb].
    - assert (Q : SFdiv pt em (S754_infinity s) (S754_finite s' mb eb) = S754_infinity (xorb s s')) by reflexivity.
      assert (R : SFmul pt em (S754_finite s' mb eb) (S754_infinity (xorb s s')) = S754_infinity s).
      { cbn [SFmul]. destruct s, s'; reflexivity. }
      assert (D : residue (S754_infinity s) (S754_finite s' mb eb) = S754_nan).
      { unfold residue. rewrite Q, R. destruct s; reflexivity. }
      apply never_step; rewrite ?D, ?Q, ?R; try reflexivity; try (destruct s, s'; reflexivity). apply nan_never. exact Zb. }
  intros m O fuel rest. apply N.
Qed.
(** a division of one term by one term with the same monomial terminates exactly when the residues reach zero;
    reaching a zero quotient first is enough to know that it never does *)
Theorem C81_stuck_diverges : forall m O n c b k rest, stuck n c b = true ->
  forall fuel, divide m O fuel [ft c [S k]] ([ft b [S k]] :: rest) = NoFuel.
Proof. intros m O n c b k rest H fuel. apply (stuck_never n c b k H). Qed.
End Float.

(** ** Harmless inputs: x divided by 49 x over f64, and by 41 x over f32 *)
Definition of_int (t : fmt) (z : Z) : float := binary_normalize (prec t) (emax t) z 0 false.
Theorem C81_division_terminates_refuted : forall m O e fuel,
  divide m O fuel [ft binary64 e (of_int binary64 1) [1]] [[ft binary64 e (of_int binary64 49) [1]]] = NoFuel /\
  divide m O fuel [ft binary32 e (of_int binary32 1) [1]] [[ft binary32 e (of_int binary32 41) [1]]] = NoFuel.
Proof.
  intros m O e fuel. split.
  - apply (C81_stuck_diverges binary64 e m O 30 (of_int binary64 1) (of_int binary64 49) 0 []). reflexivity.
  - apply (C81_stuck_diverges binary32 e m O 30 (of_int binary32 1) (of_int binary32 41) 0 []). reflexivity.
Qed.
Section Buchberger.
Context (m : mode) (O : ord_impl) (e : fenv).
Let F := float_impl binary64 e.
Let x : poly F := [ft binary64 e (of_int binary64 1) [1]].
Let y : poly F := [ft binary64 e (of_int binary64 49) [1]].
Let s : poly F := [ft binary64 e (S754_finite false 4503599627370496 (-105)) [1]].
Lemma reduce_xy : try_reduce m O x y = Ok (Some s).
Proof. reflexivity. Qed.
Lemma divide_s fuel rest : divide m O fuel s (y :: rest) = NoFuel.
Proof.
  apply (C81_stuck_diverges binary64 e m O 30 (S754_finite false 4503599627370496 (-105)) (of_int binary64 49) 0 rest). reflexivity.
Qed.
(** the ideal (49 x, x) *)
Theorem C81_buchberger_terminates_refuted : forall fuel, buchberger_algorithm m O fuel [y; x] = NoFuel.
Proof.
  intros fuel. unfold buchberger_algorithm, buchberger_extend. destruct fuel as [|[|fuel]]; [reflexivity|reflexivity|].
  assert (E : extend_loop m O (S (S fuel)) (S (S fuel)) [y; x] 0 = NoFuel).
  { cbn [extend_loop]. change (0 <? length [y; x]) with true. cbn [seq extend_inner bind].
    change (0 + 1 <? length [y; x]) with true. cbn [seq extend_inner Nat.add].
    change (vget [y; x] 1) with (Ok x). change (vget [y; x] 0) with (Ok y). cbn [bind].
    rewrite reduce_xy. cbn [unwrap bind]. rewrite divide_s. reflexivity. }
  rewrite E. reflexivity.
Qed.
End Buchberger.

(** the hypotheses of the general statements on concrete values: the least positive f64 over 3, and infinity over 2 *)
Example C81_ex_underflow :
  SFeqb (S754_finite false 1 (-1074)) fzero = false /\ SFeqb (of_int binary64 3) fzero = false /\
  mdeg_checked_sub [2] [1] = Some [1] /\
  SFeqb (SFdiv 53 1024 (S754_finite false 1 (-1074)) (of_int binary64 3)) fzero = true /\
  leading_term lex_cmp [ft binary64 (mkenv (fun x _ => x) false) (S754_finite false 1 (-1074)) [2];
    ft binary64 (mkenv (fun x _ => x) false) (of_int binary64 5) [0; 1]] =
  Ok (Some (ft binary64 (mkenv (fun x _ => x) false) (S754_finite false 1 (-1074)) [2])).
Proof. repeat split. Qed.
Example C81_ex_nonfinite : finite (S754_infinity false) = false /\ SFeqb (of_int binary64 2) fzero = false.
Proof. split; reflexivity. Qed.
Example C81_ex_not_stuck : residue binary64 (of_int binary64 1) (of_int binary64 3) = S754_zero false /\
  stuck binary64 30 (of_int binary64 1) (of_int binary64 49) = true.
Proof. split; reflexivity. Qed.

Print Assumptions C81_underflow_diverges.
Print Assumptions C81_nonfinite_diverges.
Print Assumptions C81_stuck_diverges.
Print Assumptions C81_division_terminates_refuted.
Print Assumptions C81_buchberger_terminates_refuted.
