(** * Properties C77 and C78: what a checked run says about other runs of the same code. *)
From Verif Require Import Base BaseLemmas IntModel RatModel FieldIface RatProofs MDegModel OrdModel PolyModel CompModel
  UtilModel MatModel AlgModel ConeModel PolySpec LinSpec RrefSpec MatProofs LinFacts Ideal Param ParamMat Transfer Refine PropPoly PropDiv PropGb PropMat PropLin.
Local Open Scope nat_scope.

(** ** C77: the release build *)
(** the same data, seen by the release build *)
Notation D := (rat_impl Debug).
Notation E := (rat_impl Release).
Definition rl (x : D) : E := x.
Definition rl_term (t : term D) : term E := mkterm (rl (coef t)) (tdeg t).
Definition rl_poly (p : poly D) : poly E := map rl_term p.
Definition rl_mat (a : mat D) : mat E := mkmat (map rl (ments a)) (mrows a) (mcols a).
Definition rl_form (s : @form D) : @form E := mkform (rl_mat (fp s)) (rl_mat (fb s)).
Definition rl_face (f : @face D) : @face E := mkface (rl_mat (fnormal f)) (map rl_mat (fgens f)).
Definition rl_cone (k : @cone D) : @cone E :=
  mkcone (map rl_mat (cgens k)) (map rl_face (cfacets k)) (map rl_mat (corth k)) (cambient k) (cdim k).

Lemma F2_of_map_all {A B : Type} (Q : A -> B -> Prop) (f : A -> B) l : (forall a, Q a (f a)) -> Forall2 Q l (map f l).
Proof. intros G. induction l; cbn; auto. Qed.
Notation tr := (@trel D E rateq).
Notation mr := (@mrel D E rateq).
Lemma r_tr a b : tr a b -> b = rl_term a.
Proof. destruct a as [c d], b as [c' d']. unfold trel, rateq. cbn. intros [-> ->]. reflexivity. Qed.
Lemma tr_r a : tr a (rl_term a).
Proof. split; reflexivity. Qed.
Lemma pr_r p : Forall2 tr p (rl_poly p).
Proof. apply F2_of_map_all. exact tr_r. Qed.
Lemma r_pr a b : Forall2 tr a b -> b = rl_poly a.
Proof. apply F2_map. exact r_tr. Qed.
Lemma ps_r l : Forall2 (Forall2 tr) l (map rl_poly l).
Proof. apply F2_of_map_all. exact pr_r. Qed.
Lemma r_ps a b : Forall2 (Forall2 tr) a b -> b = map rl_poly a.
Proof. apply F2_map. exact r_pr. Qed.
Lemma r_rat a b : rateq a b -> b = rl a.
Proof. exact (fun h => h). Qed.
Lemma rs_r l : Forall2 rateq l (map rl l).
Proof. apply F2_of_map_all. reflexivity. Qed.
Lemma mr_r' a : mr a (rl_mat a).
Proof. constructor; cbn; try reflexivity. apply rs_r. Qed.
Lemma r_mr a b : mr a b -> b = rl_mat a.
Proof.
  destruct a as [e r c], b as [e' r' c']. intros [H1 H2 H3]. cbn in *. subst. unfold rl_mat. cbn. f_equal.
  apply (F2_map rateq); [exact r_rat|exact H1].
Qed.
Lemma ms_r l : Forall2 mr l (map rl_mat l).
Proof. apply F2_of_map_all. exact mr_r'. Qed.
Lemma r_ms a b : Forall2 mr a b -> b = map rl_mat a.
Proof. apply F2_map. exact r_mr. Qed.
Lemma fr_r s : @frel D E rateq s (rl_form s).
Proof. constructor; apply mr_r'. Qed.
Lemma r_fr a b : @frel D E rateq a b -> b = rl_form a.
Proof. destruct a as [p b0], b as [p' b']. intros [H1 H2]. cbn in *. rewrite (r_mr _ _ H1), (r_mr _ _ H2). reflexivity. Qed.
Local Hint Resolve tr_r pr_r ps_r rs_r mr_r' ms_r fr_r dle rat_release_sim rat_release_stab : rl.
Local Hint Resolve r_tr r_pr r_ps r_rat r_mr r_ms r_fr : rl.

Theorem C77_multidegrees_release : forall a b,
  same (mdeg_add Debug a b) (mdeg_add Release a b) /\
  same (mdeg_total_deg Debug a) (mdeg_total_deg Release a) /\
  same (grlex_cmp Debug a b) (grlex_cmp Release a b) /\
  same (grevlex_cmp Debug a b) (grevlex_cmp Release a b).
Proof.
  intros a b. repeat split; apply agr_eq;
    [apply mdeg_add_rsim|apply total_deg_rsim|apply grlex_sim|apply grevlex_sim]; exact dle.
Qed.

Theorem C77_polynomials_release : forall (p q : poly D) (t s : term D) (c : D) (x : list D),
  agrees rl_poly (term_add t s) (term_add (rl_term t) (rl_term s)) /\
  agrees rl_poly (poly_add_term p t) (poly_add_term (rl_poly p) (rl_term t)) /\
  agrees rl_poly (poly_add p q) (poly_add (rl_poly p) (rl_poly q)) /\
  agrees rl_poly (poly_neg p) (poly_neg (rl_poly p)) /\
  agrees rl_poly (term_sub t s) (term_sub (rl_term t) (rl_term s)) /\
  agrees rl_poly (term_sub_poly t p) (term_sub_poly (rl_term t) (rl_poly p)) /\
  agrees rl_poly (poly_sub_term p t) (poly_sub_term (rl_poly p) (rl_term t)) /\
  agrees rl_poly (poly_sub p q) (poly_sub (rl_poly p) (rl_poly q)) /\
  agrees rl_term (term_mul Debug t s) (term_mul Release (rl_term t) (rl_term s)) /\
  agrees rl_poly (poly_mul_term Debug p t) (poly_mul_term Release (rl_poly p) (rl_term t)) /\
  agrees rl_poly (poly_scale Debug p c) (poly_scale Release (rl_poly p) (rl c)) /\
  agrees rl_poly (poly_mul Debug p q) (poly_mul Release (rl_poly p) (rl_poly q)) /\
  agrees rl_poly (poly_div_scalar Debug p c) (poly_div_scalar Release (rl_poly p) (rl c)) /\
  agrees (option_map rl_term) (term_try_div t s) (term_try_div (rl_term t) (rl_term s)) /\
  (Forall (fun u => Forall (fun d => d <= 255) (tdeg u)) p ->
   agrees rl (poly_eval p x) (poly_eval (rl_poly p) (map rl x))).
Proof.
  intros p q t s c x. pose proof rat_release_sim as X. pose proof dle as M. repeat apply conj.
  - eapply agr; [apply (term_add_rsim X)|]; auto with rl.
  - eapply agr; [apply (poly_add_term_rsim X)|]; auto with rl.
  - eapply agr; [apply (poly_add_rsim X)|]; auto with rl.
  - eapply agr; [apply (poly_neg_rsim X)|]; auto with rl.
  - eapply agr; [apply (term_sub_rsim X)|]; auto with rl.
  - eapply agr; [apply (term_sub_poly_rsim X)|]; auto with rl.
  - eapply agr; [apply (poly_sub_term_rsim X)|]; auto with rl.
  - eapply agr; [apply (poly_sub_rsim X)|]; auto with rl.
  - eapply agr; [apply (term_mul_rsim X _ _ M)|]; auto with rl.
  - eapply agr; [apply (poly_mul_term_rsim X _ _ M)|]; auto with rl.
  - eapply agr; [apply (poly_scale_rsim X _ _ M)|]; auto with rl; reflexivity.
  - eapply agr; [apply (poly_mul_rsim X _ _ M)|]; auto with rl.
  - eapply agr; [|apply r_pr]. unfold poly_div_scalar. eapply rsim_bind; [apply rsim_rateq, rat_recip_rsim|].
    intros i i' _ Hi. apply (poly_scale_rsim X _ _ M); auto with rl.
  - eapply agr; [apply (term_try_div_rsim X)|]; auto with rl. intros a b. apply o_map. exact r_tr.
  - intros B. eapply agr; [apply (poly_eval_rsim X)|]; auto with rl.
Qed.

(** the four orders of the crate *)
Inductive order := OLex | ORevLex | OGrLex | OGRevLex.
Definition cmp_of (m : mode) (o : order) : ord_impl :=
  match o with OLex => lex_cmp | ORevLex => revlex_cmp | OGrLex => grlex_cmp m | OGRevLex => grevlex_cmp m end.
Lemma cmp_of_sim o : ord_sim (cmp_of Debug o) (cmp_of Release o).
Proof. destruct o; [apply lex_sim|apply revlex_sim|apply grlex_sim; exact dle|apply grevlex_sim; exact dle]. Qed.

Definition rl_div (x : poly D * list (poly D)) : poly E * list (poly E) := (rl_poly (fst x), map rl_poly (snd x)).
Lemma r_drel a b : @drel D E rateq a b -> b = rl_div a.
Proof. destruct a as [r q], b as [r' q']. intros [H1 H2]. cbn in *. rewrite (r_pr _ _ H1), (r_ps _ _ H2). reflexivity. Qed.

Theorem C77_computer_release : forall (o : order) (n : nat) (f g : poly D) (gs : list (poly D)),
  let OD := cmp_of Debug o in let OR := cmp_of Release o in
  agrees rl_poly (sort_terms OD f) (sort_terms OR (rl_poly f)) /\
  agrees (option_map rl_term) (leading_term OD f) (leading_term OR (rl_poly f)) /\
  agrees (option_map rl) (leading_coef OD f) (leading_coef OR (rl_poly f)) /\
  agrees rl_div (divide Debug OD n f gs) (divide Release OR n (rl_poly f) (map rl_poly gs)) /\
  agrees (option_map rl_poly) (try_reduce Debug OD f g) (try_reduce Release OR (rl_poly f) (rl_poly g)) /\
  same (buchberger_criterion Debug OD n gs) (buchberger_criterion Release OR n (map rl_poly gs)) /\
  agrees (map rl_poly) (buchberger_algorithm Debug OD n gs) (buchberger_algorithm Release OR n (map rl_poly gs)).
Proof.
  intros o n f g gs OD OR. pose proof rat_release_sim as X. pose proof dle as M. pose proof (cmp_of_sim o) as OO.
  fold OD OR in OO. repeat apply conj.
  - eapply agr; [eapply (sort_terms_rsim (R := rateq) _ _ OO)|]; auto with rl.
  - eapply agr; [eapply (leading_term_rsim (R := rateq) _ _ OO)|]; auto with rl. intros a b. apply o_map. exact r_tr.
  - eapply agr; [eapply (leading_coef_rsim (R := rateq) _ _ OO)|]; auto with rl. intros a b. apply o_map. exact r_rat.
  - eapply agr; [apply (divide_rsim X _ _ M _ _ OO)|]; auto with rl. exact r_drel.
  - eapply agr; [apply (try_reduce_rsim X _ _ M _ _ OO)|]; auto with rl. intros a b. apply o_map. exact r_pr.
  - apply agr_eq. apply (criterion_rsim X _ _ M _ _ OO). auto with rl.
  - eapply agr; [apply (buchberger_rsim X _ _ M _ _ OO)|]; auto with rl.
Qed.

Theorem C77_matrices_release : forall (a b : mat D) (i j : nat) (c : D) (vs : list (mat D)),
  agrees rl_mat (mat_add a b) (mat_add (rl_mat a) (rl_mat b)) /\
  agrees rl_mat (mat_mul a b) (mat_mul (rl_mat a) (rl_mat b)) /\
  agrees rl_mat (mat_scale a c) (mat_scale (rl_mat a) (rl c)) /\
  agrees rl_mat (mat_transpose a) (mat_transpose (rl_mat a)) /\
  agrees rl_mat (mat_scale_row a i c) (mat_scale_row (rl_mat a) i (rl c)) /\
  agrees rl_mat (mat_permute_rows a i j) (mat_permute_rows (rl_mat a) i j) /\
  agrees rl_mat (mat_replace_row a i j c) (mat_replace_row (rl_mat a) i j (rl c)) /\
  agrees rl_mat (mat_from_row_vectors vs) (mat_from_row_vectors (map rl_mat vs)) /\
  agrees rl_mat (mat_from_col_vectors vs) (mat_from_col_vectors (map rl_mat vs)) /\
  agrees rl (mat_dot a b) (mat_dot (rl_mat a) (rl_mat b)) /\
  agrees rl (mat_frobenius a) (mat_frobenius (rl_mat a)) /\
  same (mat_is_upper a) (mat_is_upper (rl_mat a)) /\
  same (mat_is_lower a) (mat_is_lower (rl_mat a)) /\
  same (mat_epsilon_equals (rat_stab Debug) a b) (mat_epsilon_equals (rat_stab Release) (rl_mat a) (rl_mat b)).
Proof.
  intros a b i j c vs. pose proof rat_release_sim as X. repeat apply conj.
  - eapply agr; [apply (mat_add_rsim X)|]; auto with rl.
  - eapply agr; [apply (mat_mul_rsim X)|]; auto with rl.
  - eapply agr; [apply (mat_scale_rsim X)|]; auto with rl. reflexivity.
  - eapply agr; [eapply mat_transpose_rsim|]; auto with rl.
  - eapply agr; [apply (mat_scale_row_rsim X)|]; auto with rl. reflexivity.
  - eapply agr; [eapply mat_permute_rows_rsim|]; auto with rl.
  - eapply agr; [apply (mat_replace_row_rsim X)|]; auto with rl. reflexivity.
  - eapply agr; [eapply mat_from_row_vectors_rsim|]; auto with rl.
  - eapply agr; [eapply mat_from_col_vectors_rsim|]; auto with rl.
  - eapply agr; [apply (mat_dot_rsim X)|]; auto with rl.
  - eapply agr; [apply (mat_frobenius_rsim X)|]; auto with rl.
  - apply agr_eq. apply (mat_is_upper_rsim X). auto with rl.
  - apply agr_eq. apply (mat_is_lower_rsim X). auto with rl.
  - apply agr_eq. apply (mat_epsilon_equals_rsim X _ _ rat_release_stab); auto with rl.
Qed.

Definition rl_mat3 (x : mat D * mat D * mat D) : mat E * mat E * mat E := (rl_mat (fst (fst x)), rl_mat (snd (fst x)), rl_mat (snd x)).
Theorem C77_elimination_release : forall (a : mat D) (s : @form D) (cols : list nat),
  let T := rat_stab Debug in let T' := rat_stab Release in
  agrees rl_mat3 (mat_lu T a) (mat_lu T' (rl_mat a)) /\
  agrees rl_form (mat_row_echelon T a) (mat_row_echelon T' (rl_mat a)) /\
  agrees rl_form (form_to_rref T s) (form_to_rref T' (rl_form s)) /\
  same (form_rank T s) (form_rank T' (rl_form s)) /\
  same (form_nullity T s) (form_nullity T' (rl_form s)) /\
  agrees (map rl_mat) (compute_kernel T s) (compute_kernel T' (rl_form s)) /\
  agrees (map rl_mat) (compute_range a cols) (compute_range (rl_mat a) cols).
Proof.
  intros a s cols T T'. pose proof rat_release_sim as X. pose proof rat_release_stab as Y. repeat apply conj.
  - eapply agr; [apply (mat_lu_rsim X _ _ Y)|]; auto with rl.
    intros [[p l] u] [[p' l'] u'] [H1 [H2 H3]]. cbn in *. rewrite (r_mr _ _ H1), (r_mr _ _ H2), (r_mr _ _ H3). reflexivity.
  - eapply agr; [apply (row_echelon_rsim X _ _ Y)|]; auto with rl.
  - eapply agr; [apply (to_rref_rsim X _ _ Y)|]; auto with rl.
  - apply agr_eq. apply (form_rank_rsim _ _ Y). auto with rl.
  - apply agr_eq. apply (form_nullity_rsim _ _ Y). auto with rl.
  - eapply agr; [apply (compute_kernel_rsim X _ _ Y)|]; auto with rl.
  - eapply agr; [eapply compute_range_rsim|]; auto with rl.
Qed.

Theorem C77_cone_release : forall gens : list (mat D),
  agrees rl_cone (cone_new (rat_stab Debug) gens) (cone_new (rat_stab Release) (map rl_mat gens)).
Proof.
  intros gens. eapply agr; [apply (cone_new_rsim rat_release_sim _ _ rat_release_stab)|]; auto with rl.
  intros [g f o a d] [g' f' o' a' d'] [H1 H2 H3 H4 H5]. cbn in *. subst. unfold rl_cone. cbn. f_equal; auto with rl.
  apply (F2_map (@facerel D E rateq)); [|exact H2]. intros [n h] [n' h'] [G1 G2]. cbn in *.
  rewrite (r_mr _ _ G1), (r_ms _ _ G2). reflexivity.
Qed.

(** ** C78: equal numbers in different representations *)
Section Representation.
Context {F : FieldImpl} {K : MathField} (FS : FieldSpec F K).

(** the same number; the same polynomial term by term; lists of these *)
Definition sv (x y : F) : Prop := fwf FS x /\ fwf FS y /\ den FS x = den FS y.
Definition sv_term (s t : term F) : Prop := sv (coef s) (coef t) /\ tdeg s = tdeg t.
Definition sv_poly : poly F -> poly F -> Prop := Forall2 sv_term.
(** both runs return related values, or panic alike, unless one of them overflows *)
Definition coincide {A : Type} (Q : A -> A -> Prop) (x y : res A) : Prop :=
  x = Panic Overflow \/ y = Panic Overflow \/
  match x, y with
  | Ok a, Ok b => Q a b
  | Panic k, Panic k' => k = k'
  | NoFuel, NoFuel => True
  | _, _ => False
  end.

Lemma coin {A B : Type} (R : A -> B -> Prop) (Q : A -> A -> Prop) x y z : rsim R x z -> rsim R y z ->
  (forall a b c, R a c -> R b c -> Q a b) -> coincide Q x y.
Proof.
  intros H G E. destruct x as [a|k|]; [| |].
  - destruct z as [c| |]; cbn in H; try contradiction.
    destruct y as [b|k|]; cbn in G; [right; right; eauto| |congruence]. destruct k; try congruence. right. left. reflexivity.
  - destruct k; try (left; reflexivity); cbn in H; subst z;
      (destruct y as [b|k|]; cbn in G; [contradiction| |congruence]);
      (destruct k; [right; left; reflexivity|..]; try congruence; right; right; reflexivity).
  - cbn in H. subst z. destruct y as [b|k|]; cbn in G; [contradiction| |right; right; exact I].
    destruct k; try congruence. right. left. reflexivity.
Qed.
Notation vr := (vrel FS).
Notation tv := (@trel F (ideal_impl K) vr).
Definition vt (t : term F) : term (ideal_impl K) := mkterm (den FS (coef t) : ideal_impl K) (tdeg t).
Lemma sv_l s t : sv_term s t -> tv s (vt s) /\ tv t (vt s).
Proof. intros [[W [V Q]] H]. repeat split; cbn; auto. Qed.
Lemma svp_l p q : sv_poly p q -> exists v, Forall2 tv p v /\ Forall2 tv q v.
Proof.
  induction 1 as [|s t p q H _ [v [IH1 IH2]]]; [exists []; auto|]. exists (vt s :: v). apply sv_l in H. destruct H. auto.
Qed.
Lemma svps_l p q : Forall2 sv_poly p q -> exists v, Forall2 (Forall2 tv) p v /\ Forall2 (Forall2 tv) q v.
Proof.
  induction 1 as [|s t p q H _ [v [IH1 IH2]]]; [exists []; auto|]. apply svp_l in H. destruct H as [w [H1 H2]].
  exists (w :: v). auto.
Qed.
Lemma svs_l x y : Forall2 sv x y -> exists v, Forall2 vr x v /\ Forall2 vr y v.
Proof.
  induction 1 as [|s t p q H _ [v [IH1 IH2]]]; [exists []; auto|]. destruct H as [W [V Q]].
  exists ((den FS s : ideal_impl K) :: v). split; constructor; auto; split; auto.
Qed.
Lemma l_sv a b c : vr a c -> vr b c -> sv a b.
Proof. intros [W ->] [V Q]. repeat split; assumption. Qed.
Lemma l_svt a b c : tv a c -> tv b c -> sv_term a b.
Proof. intros [H1 H2] [G1 G2]. split; [eapply l_sv; eassumption|congruence]. Qed.
Lemma l_F2 {A B : Type} (R : A -> B -> Prop) (Q : A -> A -> Prop) : (forall a b c, R a c -> R b c -> Q a b) ->
  forall l l' v, Forall2 R l v -> Forall2 R l' v -> Forall2 Q l l'.
Proof.
  intros E l l0 v H. revert l0. induction H; intros k G; inversion_clear G; constructor; eauto.
Qed.
Lemma l_o {A B : Type} (R : A -> B -> Prop) (Q : A -> A -> Prop) : (forall a b c, R a c -> R b c -> Q a b) ->
  forall o o' v, orel R o v -> orel R o' v -> orel Q o o'.
Proof. intros E o o' v. destruct o, v, o'; cbn; try contradiction; eauto. Qed.
Definition l_svp := l_F2 _ _ l_svt.
Definition l_svps := l_F2 _ _ l_svp.

Theorem C78_arithmetic : forall m p q p' q', sv_poly p p' -> sv_poly q q' ->
  coincide sv_poly (poly_add p q) (poly_add p' q') /\
  coincide sv_poly (poly_sub p q) (poly_sub p' q') /\
  coincide sv_poly (poly_mul m p q) (poly_mul m p' q').
Proof.
  intros m p q p' q' H G. pose proof (exact_sim FS) as X. assert (M : mode_le m m) by (right; reflexivity).
  apply svp_l in H, G. destruct H as [v [H1 H2]], G as [w [G1 G2]]. repeat apply conj.
  - eapply coin; [apply (poly_add_rsim X _ _ _ _ H1 G1)|apply (poly_add_rsim X _ _ _ _ H2 G2)|exact l_svp].
  - eapply coin; [apply (poly_sub_rsim X _ _ _ _ H1 G1)|apply (poly_sub_rsim X _ _ _ _ H2 G2)|exact l_svp].
  - eapply coin; [apply (poly_mul_rsim X _ _ M _ _ _ _ H1 G1)|apply (poly_mul_rsim X _ _ M _ _ _ _ H2 G2)|exact l_svp].
Qed.
Theorem C78_eval : forall p p' x x', sv_poly p p' -> Forall2 sv x x' ->
  Forall (fun t => Forall (fun d => d <= 255) (tdeg t)) p ->
  coincide sv (poly_eval p x) (poly_eval p' x').
Proof.
  intros p p' x x' H G B. pose proof (exact_sim FS) as X.
  assert (B' : Forall (fun t => Forall (fun d => d <= 255) (tdeg t)) p').
  { clear G. induction H as [|s t p p' Hs _ IH]; [constructor|]. inversion_clear B. constructor; [|auto].
    destruct Hs as [_ <-]. assumption. }
  apply svp_l in H. apply svs_l in G. destruct H as [v [H1 H2]], G as [w [G1 G2]].
  eapply coin; [apply (poly_eval_rsim X _ _ _ _ H1 B G1)|apply (poly_eval_rsim X _ _ _ _ H2 B' G2)|exact l_sv].
Qed.
(** any order, any fuel *)
Theorem C78_division : forall m O n f f' gs gs', sv_poly f f' -> Forall2 sv_poly gs gs' ->
  coincide (fun x y => sv_poly (fst x) (fst y) /\ Forall2 sv_poly (snd x) (snd y))
    (divide m O n f gs) (divide m O n f' gs').
Proof.
  intros m O n f f' gs gs' H G. pose proof (exact_sim FS) as X. assert (M : mode_le m m) by (right; reflexivity).
  assert (OO : ord_sim O O) by (intros a b; apply rsim_refl).
  apply svp_l in H. apply svps_l in G. destruct H as [v [H1 H2]], G as [w [G1 G2]].
  eapply coin; [apply (divide_rsim X _ _ M _ _ OO n _ _ _ _ H1 G1)|apply (divide_rsim X _ _ M _ _ OO n _ _ _ _ H2 G2)|].
  intros a b c [A1 A2] [B1 B2]. split; [eapply l_svp; eassumption|eapply l_svps; eassumption].
Qed.
Theorem C78_groebner : forall m O n gs gs', Forall2 sv_poly gs gs' ->
  coincide eq (buchberger_criterion m O n gs) (buchberger_criterion m O n gs') /\
  coincide (Forall2 sv_poly) (buchberger_algorithm m O n gs) (buchberger_algorithm m O n gs').
Proof.
  intros m O n gs gs' G. pose proof (exact_sim FS) as X. assert (M : mode_le m m) by (right; reflexivity).
  assert (OO : ord_sim O O) by (intros a b; apply rsim_refl).
  apply svps_l in G. destruct G as [w [G1 G2]]. split.
  - eapply coin; [apply (criterion_rsim X _ _ M _ _ OO n _ _ G1)|apply (criterion_rsim X _ _ M _ _ OO n _ _ G2)|congruence].
  - eapply coin; [apply (buchberger_rsim X _ _ M _ _ OO n _ _ G1)|apply (buchberger_rsim X _ _ M _ _ OO n _ _ G2)|].
    intros a b c. apply l_svps.
Qed.

Context (T : StabImpl F) (TS : StabSpec FS T).
Notation okm := (okm FS).
Notation val := (mden FS).
Theorem C78_elimination : forall a a' n m s s', okm n m a -> okm n m a' ->
  meq n m (val a) (val a') -> rref_of T a s -> rref_of T a' s' ->
  meq n m (val (fb s)) (val (fb s')) /\ form_rank T s = form_rank T s'.
Proof.
  intros a a' n m s s' W W' E H H'. split.
  - apply (C69_rref_unique FS T TS a a' n m s s' W W' H H'). exists mid. split; [apply invertible_id|].
    intros i j Hi Hj. rewrite (mmul_id_l n m _ i j Hi Hj). apply E; assumption.
  - destruct (C53_rank FS T TS a n m s W (or_intror H)) as (r1 & R1 & _ & _ & D1 & _).
    destruct (C53_rank FS T TS a' n m s' W' (or_intror H')) as (r2 & R2 & _ & _ & D2 & _).
    rewrite R1, R2. f_equal.
    apply (dimension_unique n (in_colspace n m (val a))); [exact D1|].
    eapply dimension_iff; [|exact D2]. intros v. split; apply in_colspace_ext; [apply meq_sym|]; exact E.
Qed.
End Representation.

(** the change of basis [fp] of a row echelon form does depend on the representation: 8/16 and 1/2 are the
    same number, but stability_cmp ranks them differently, so another row becomes the pivot *)
Definition ex_half := ex_mat 2 1 [(1,2);(1,3)]%Z.
Definition ex_half' := ex_mat 2 1 [(8,16);(1,3)]%Z.
Definition ex_half_rref : form (F:=D) := mkform (ex_mat 2 2 [(2,1);(0,1);(-2,3);(1,1)]%Z) (ex_mat 2 1 [(1,1);(0,1)]%Z).
Definition ex_half_rref' : form (F:=D) := mkform (ex_mat 2 2 [(0,1);(3,1);(1,1);(-3,2)]%Z) (ex_mat 2 1 [(1,1);(0,1)]%Z).
Lemma ex_half_same : meq 2 1 (mden rat_spec ex_half) (mden rat_spec ex_half').
Proof.
  intros i j Hi Hj. destruct i as [|[|i]]; [| |lia]; (destruct j as [|j]; [|lia]); apply Qcanon.Qc_is_canon; reflexivity.
Qed.
Theorem C78_transformation_refuted : ~ (forall (a a' : mat D) n m s s', okm rat_spec n m a -> okm rat_spec n m a' ->
  meq n m (mden rat_spec a) (mden rat_spec a') -> rref_of (rat_stab Debug) a s -> rref_of (rat_stab Debug) a' s' ->
  meq n n (mden rat_spec (fp s)) (mden rat_spec (fp s'))).
Proof.
  intros H. specialize (H ex_half ex_half' 2 1 ex_half_rref ex_half_rref').
  assert (H0 : mden rat_spec (fp ex_half_rref) 0 0 = mden rat_spec (fp ex_half_rref') 0 0).
  { apply H; try lia; try (split; [apply ex_mat_ok; reflexivity|split; reflexivity]);
      try (apply ex_rref_of; reflexivity). exact ex_half_same. }
  apply (f_equal Qcanon.this) in H0. discriminate H0.
Qed.

(** ** Concrete cases *)
Example C77_ex_divide : divide Release lex_cmp 10 (rl_poly ex_f) (map rl_poly [ex_g1; ex_g2]) =
  Ok (rl_div ([ex_t 1 1 [1]; ex_t 1 1 [0; 1]; ex_t 1 1 []], [[ex_t 1 1 [1]; ex_t 1 1 [0; 1]]; [ex_t 1 1 []]])).
Proof.
  destruct (C77_computer_release OLex 10 ex_f [] [ex_g1; ex_g2]) as (_ & _ & _ & H & _). cbn [cmp_of] in H.
  rewrite H; rewrite C32_ex; [reflexivity|discriminate].
Qed.
Example C77_ex_overflow : grlex_cmp Debug [200; 56] [1] = Panic Overflow /\ grlex_cmp Release [200; 56] [1] = Ok Lt.
Proof. split; reflexivity. Qed.
Example C77_ex_rref : rref_of (rat_stab Release) (rl_mat ex_a) (rl_form ex_a_rref).
Proof.
  destruct C52_ex as (s0 & E0 & E1).
  destruct (C77_elimination_release ex_a s0 []) as (_ & H & G & _). cbv zeta in H, G.
  unfold agrees in H, G. rewrite E0 in H. rewrite E1 in G. exists (rl_form s0). split; [apply H|apply G]; discriminate.
Qed.
(** 2/4 x - 3/3 and 1/2 x - 1 *)
Example C78_ex : sv_poly rat_spec [ex_t 2 4 [1]; ex_t (-3) 3 []] [ex_t 1 2 [1]; ex_t (-1) 1 []] /\
  poly_add [ex_t 2 4 [1]; ex_t (-3) 3 []] [ex_t 1 4 []] = Ok [ex_t 2 4 [1]; ex_t (-9) 12 []] /\
  poly_add [ex_t 1 2 [1]; ex_t (-1) 1 []] [ex_t 1 4 []] = Ok [ex_t 1 2 [1]; ex_t (-3) 4 []].
Proof.
  split.
  - repeat constructor; cbn; try lia; apply Qcanon.Qc_is_canon; reflexivity.
  - split; reflexivity.
Qed.
Example C78_ex_elimination : rref_of (rat_stab Debug) ex_half ex_half_rref /\ rref_of (rat_stab Debug) ex_half' ex_half_rref'.
Proof. split; apply ex_rref_of; reflexivity. Qed.

Print Assumptions C77_multidegrees_release.
Print Assumptions C77_polynomials_release.
Print Assumptions C77_computer_release.
Print Assumptions C77_matrices_release.
Print Assumptions C77_elimination_release.
Print Assumptions C77_cone_release.
Print Assumptions C78_arithmetic.
Print Assumptions C78_eval.
Print Assumptions C78_division.
Print Assumptions C78_groebner.
Print Assumptions C78_elimination.
Print Assumptions C78_transformation_refuted.
