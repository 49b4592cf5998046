(** * Two runs of the same code side by side.

    [rsim R x y]: as long as [x] does not overflow, [y] does the same thing: related values, the same panic,
    or the same lack of fuel.  Every generic function of the model respects it, for any two coefficient types
    whose operations do. *)
From Verif Require Import Base BaseLemmas FieldIface MDegModel OrdModel PolyModel CompModel UtilModel MatModel AlgModel ConeModel.

Definition rsim {A A' : Type} (R : A -> A' -> Prop) (x : res A) (y : res A') : Prop :=
  match x with
  | Ok a => match y with Ok a' => R a a' | _ => False end
  | Panic Overflow => True
  | Panic k => y = Panic k
  | NoFuel => y = NoFuel
  end.

Definition orel {A A' : Type} (R : A -> A' -> Prop) (o : option A) (o' : option A') : Prop :=
  match o, o' with
  | Some a, Some a' => R a a'
  | None, None => True
  | _, _ => False
  end.

Lemma Forall2_length {A A' : Type} {R : A -> A' -> Prop} {l l'} : Forall2 R l l' -> length l = length l'.
Proof. induction 1; cbn; congruence. Qed.

Section Basic.
Context {A A' : Type} (R : A -> A' -> Prop).

Lemma rsim_Ok a a' : R a a' -> rsim R (Ok a) (Ok a').
Proof. exact (fun h => h). Qed.
Lemma rsim_Panic k : rsim R (Panic k) (Panic k).
Proof. destruct k; cbn; auto. Qed.
Lemma rsim_NoFuel : rsim R NoFuel NoFuel.
Proof. reflexivity. Qed.
Lemma rsim_inv x y a : rsim R x y -> x = Ok a -> exists a', y = Ok a' /\ R a a'.
Proof. intros H ->. cbn in H. destruct y as [a'|k|]; try contradiction. exists a'. auto. Qed.
Lemma rsim_bind {B B' : Type} (Q : B -> B' -> Prop) x y (f : A -> res B) (g : A' -> res B') :
  rsim R x y -> (forall a a', x = Ok a -> R a a' -> rsim Q (f a) (g a')) -> rsim Q (bind x f) (bind y g).
Proof.
  destruct x as [a|k|]; cbn.
  - intros H G. destruct y as [a'|k|]; try contradiction. apply G; auto.
  - intros H _. destruct k; try exact I; subst y; reflexivity.
  - intros -> _. reflexivity.
Qed.
Lemma rsim_mono (Q : A -> A' -> Prop) x y : (forall a a', R a a' -> Q a a') -> rsim R x y -> rsim Q x y.
Proof. intros H. destruct x as [a|[]|], y; cbn; auto. Qed.

Lemma unwrap_rsim o o' : orel R o o' -> rsim R (unwrap o) (unwrap o').
Proof. destruct o, o'; cbn; try contradiction; auto. Qed.

End Basic.
Section Lists.
Context {A A' : Type} (R : A -> A' -> Prop).
Lemma Forall2_nth_error l l' i : Forall2 R l l' -> orel R (nth_error l i) (nth_error l' i).
Proof. intros H. revert i. induction H; intros [|i]; cbn; auto. Qed.
Lemma vget_rsim l l' i : Forall2 R l l' -> rsim R (vget l i) (vget l' i).
Proof. intros H. apply (Forall2_nth_error _ _ i) in H. unfold vget. destruct (nth_error l i), (nth_error l' i); cbn in *; try contradiction; auto. Qed.
Lemma list_set_rel l l' i a a' : Forall2 R l l' -> R a a' -> Forall2 R (list_set l i a) (list_set l' i a').
Proof. intros H Ha. revert i. induction H; intros [|i]; cbn; auto. Qed.
Lemma vset_rsim l l' i a a' : Forall2 R l l' -> R a a' -> rsim (Forall2 R) (vset l i a) (vset l' i a').
Proof.
  intros H Ha. unfold vset. rewrite (Forall2_length H). destruct (i <? length l'); [|apply rsim_Panic].
  apply rsim_Ok. apply list_set_rel; assumption.
Qed.
Lemma list_remove_rel l l' i : Forall2 R l l' -> Forall2 R (list_remove l i) (list_remove l' i).
Proof. intros H. revert i. induction H; intros [|i]; cbn; auto. Qed.
Lemma position_rel p p' l l' : (forall a a', R a a' -> p a = p' a') -> Forall2 R l l' -> position p l = position p' l'.
Proof. intros E H. induction H as [|a a' l l' Ha _ IH]; cbn; [reflexivity|]. rewrite (E _ _ Ha), IH. reflexivity. Qed.
Lemma filter_rel p p' l l' : (forall a a', R a a' -> p a = p' a') -> Forall2 R l l' -> Forall2 R (filter p l) (filter p' l').
Proof. intros E H. induction H as [|a a' l l' Ha _ IH]; cbn; [constructor|]. rewrite (E _ _ Ha). destruct (p' a'); auto. Qed.
Lemma rev_rel l l' : Forall2 R l l' -> Forall2 R (rev l) (rev l').
Proof. induction 1; cbn; [constructor|]. apply Forall2_app; auto. Qed.
Lemma skipn_rel n l l' : Forall2 R l l' -> Forall2 R (skipn n l) (skipn n l').
Proof. intros H. revert n. induction H; intros [|n]; cbn; auto. Qed.
Lemma firstn_rel n l l' : Forall2 R l l' -> Forall2 R (firstn n l) (firstn n l').
Proof. intros H. revert n. induction H; intros [|n]; cbn; auto. Qed.
Lemma repeat_rel n a a' : R a a' -> Forall2 R (repeat a n) (repeat a' n).
Proof. intros H. induction n; cbn; auto. Qed.

Lemma foldM_rsim {B B' : Type} (Q : B -> B' -> Prop) f f' l l' :
  (forall s s' a a', Q s s' -> R a a' -> rsim Q (f s a) (f' s' a')) -> Forall2 R l l' ->
  forall s s', Q s s' -> rsim Q (foldM f l s) (foldM f' l' s').
Proof.
  intros E H. induction H as [|a a' l l' Ha _ IH]; intros s s' Hs; cbn; [exact Hs|].
  eapply rsim_bind; [apply E; eassumption|]. intros t t' _ Ht. apply IH. exact Ht.
Qed.
Lemma mapM_rsim {B B' : Type} (Q : B -> B' -> Prop) f f' l l' :
  (forall a a', R a a' -> rsim Q (f a) (f' a')) -> Forall2 R l l' -> rsim (Forall2 Q) (mapM f l) (mapM f' l').
Proof.
  intros E H. induction H as [|a a' l l' Ha _ IH]; cbn; [constructor|].
  eapply rsim_bind; [apply E; exact Ha|]. intros b b' _ Hb. eapply rsim_bind; [exact IH|]. intros bs bs' _ Hbs.
  apply rsim_Ok. constructor; assumption.
Qed.
Lemma max_by_rsim f f' l l' : (forall a b a' b', R a a' -> R b b' -> rsim eq (f a b) (f' a' b')) ->
  Forall2 R l l' -> rsim (orel R) (max_by f l) (max_by f' l').
Proof.
  intros E H. destruct H as [|a a' l l' Ha H]; cbn; [exact I|].
  eapply rsim_bind; [|intros r r' _ Hr; apply rsim_Ok; exact Hr].
  apply (foldM_rsim R); [|exact H|exact Ha].
  intros s s' b b' Hs Hb. eapply rsim_bind; [apply E; eassumption|]. intros c c' _ <-. destruct c; apply rsim_Ok; assumption.
Qed.
Lemma insert_by_rsim f f' x x' l l' : (forall a b a' b', R a a' -> R b b' -> rsim eq (f a b) (f' a' b')) ->
  R x x' -> Forall2 R l l' -> rsim (Forall2 R) (insert_by f x l) (insert_by f' x' l').
Proof.
  intros E Hx H. induction H as [|a a' l l' Ha H IH]; cbn; [auto|].
  eapply rsim_bind; [apply E; eassumption|]. intros c c' _ <-. destruct c; try (apply rsim_Ok; auto).
  eapply rsim_bind; [exact IH|]. intros z z' _ Hz. apply rsim_Ok. auto.
Qed.
Lemma sort_by_rsim f f' l l' : (forall a b a' b', R a a' -> R b b' -> rsim eq (f a b) (f' a' b')) ->
  Forall2 R l l' -> rsim (Forall2 R) (sort_by f l) (sort_by f' l').
Proof.
  intros E H. induction H as [|a a' l l' Ha H IH]; cbn; [constructor|].
  eapply rsim_bind; [exact IH|]. intros z z' _ Hz. apply insert_by_rsim; assumption.
Qed.
Lemma reduce_iter_rsim f f' l l' : (forall a b a' b', R a a' -> R b b' -> rsim R (f a b) (f' a' b')) ->
  Forall2 (rsim R) l l' -> rsim (orel R) (reduce_iter f l) (reduce_iter f' l').
Proof.
  intros E H. destruct H as [|x x' l l' Hx H]; cbn; [exact I|].
  eapply rsim_bind; [exact Hx|]. intros a a' _ Ha. eapply rsim_bind; [|intros r r' _ Hr; apply rsim_Ok; exact Hr].
  revert a a' Ha. induction H as [|y y' l l' Hy _ IH]; intros a a' Ha; cbn; [exact Ha|].
  eapply rsim_bind; [|intros b b' _ Hb; apply IH; exact Hb].
  eapply rsim_bind; [exact Hy|]. intros b b' _ Hb. apply E; assumption.
Qed.
End Lists.

Lemma Forall2_impl {A A' : Type} (R Q : A -> A' -> Prop) l l' : (forall a a', R a a' -> Q a a') -> Forall2 R l l' -> Forall2 Q l l'.
Proof. intros E. induction 1; auto. Qed.
Lemma Forall2_eq {A : Type} (l : list A) : Forall2 eq l l.
Proof. induction l; auto. Qed.
Lemma Forall2_eq_inv {A : Type} (l l' : list A) : Forall2 eq l l' -> l = l'.
Proof. induction 1; congruence. Qed.
Lemma rsim_refl {A : Type} (x : res A) : rsim eq x x.
Proof. destruct x as [a|[]|]; cbn; auto. Qed.
Lemma Forall2_map_l {A A' B B' : Type} (R : A -> A' -> Prop) (Q : B -> B' -> Prop) f f' l l' :
  (forall a a', R a a' -> Q (f a) (f' a')) -> Forall2 R l l' -> Forall2 Q (map f l) (map f' l').
Proof. intros E. induction 1; cbn; auto. Qed.
Definition prel2 {A A' B B' : Type} (R : A -> A' -> Prop) (Q : B -> B' -> Prop) (p : A * B) (p' : A' * B') : Prop :=
  R (fst p) (fst p') /\ Q (snd p) (snd p').
Lemma combine_rel {A A' B B' : Type} (R : A -> A' -> Prop) (Q : B -> B' -> Prop) l l' k k' :
  Forall2 R l l' -> Forall2 Q k k' -> Forall2 (prel2 R Q) (combine l k) (combine l' k').
Proof.
  intros H. revert k k'. induction H as [|a a' l l' Ha _ IH]; intros k k' K; cbn; [constructor|].
  destruct K; constructor; [split; assumption|auto].
Qed.

(** every operation of the coefficient types behaves alike *)
Record FieldSim (F F' : FieldImpl) (R : F -> F' -> Prop) : Prop := {
  s_0 : R f0 f0;
  s_1 : R f1 f1;
  s_eq0 : forall x x', R x x' -> feqb x f0 = feqb x' f0;
  s_add : forall x y x' y', R x x' -> R y y' -> rsim R (fadd x y) (fadd x' y');
  s_sub : forall x y x' y', R x x' -> R y y' -> rsim R (fsub x y) (fsub x' y');
  s_neg : forall x x', R x x' -> rsim R (fneg x) (fneg x');
  s_mul : forall x y x' y', R x x' -> R y y' -> rsim R (fmul x y) (fmul x' y');
  s_div : forall x y x' y', R x x' -> R y y' -> feqb y f0 = false -> rsim R (fdiv x y) (fdiv x' y');
  s_inv : forall x x', R x x' -> feqb x f0 = false -> rsim R (finv x) (finv x');
  s_pow : forall x x' n, R x x' -> (0 <= n <= 255)%Z -> rsim R (fpowi32 x n) (fpowi32 x' n);
  s_sum : forall l l', Forall2 (rsim R) l l' -> Forall (fun r => r <> NoFuel) l -> rsim R (fsum l) (fsum l');
  s_mul_nf : forall x y x' y', R x x' -> R y y' -> fmul x y <> NoFuel;
  s_pow_nf : forall x x' n, R x x' -> (0 <= n <= 255)%Z -> fpowi32 x n <> NoFuel
}.

(** the two profiles: a checked build may be compared with any build *)
Definition mode_le (m m' : mode) : Prop := m = Debug \/ m = m'.

Lemma u8_add_rsim m m' a b : mode_le m m' -> rsim eq (u8_add m a b) (u8_add m' a b).
Proof.
  intros M. unfold u8_add. destruct (a + b <=? 255); [reflexivity|].
  destruct M as [-> | ->]; [exact I|apply rsim_refl].
Qed.
Lemma mdeg_add_loop_rsim m m' ps : mode_le m m' -> forall ds z,
  rsim eq (mdeg_add_loop m ps ds z) (mdeg_add_loop m' ps ds z).
Proof.
  intros M. induction ps as [|p ps IH]; intros ds z; cbn; [reflexivity|].
  destruct p as [[|a] [|b]|[|a]|[|b]]; try apply IH;
    (eapply rsim_bind; [apply u8_add_rsim; exact M|]; intros c c' _ <-; apply IH).
Qed.
Lemma mdeg_add_rsim m m' a b : mode_le m m' -> rsim eq (mdeg_add m a b) (mdeg_add m' a b).
Proof. intros M. apply mdeg_add_loop_rsim. exact M. Qed.
Lemma total_deg_rsim m m' a : mode_le m m' -> rsim eq (mdeg_total_deg m a) (mdeg_total_deg m' a).
Proof.
  intros M. apply (foldM_rsim eq); [|apply Forall2_eq|reflexivity].
  intros s s' x x' <- <-. apply u8_add_rsim. exact M.
Qed.
Definition ord_sim (O O' : ord_impl) : Prop := forall a b, rsim eq (O a b) (O' a b).
Lemma grad_sim m m' : mode_le m m' -> ord_sim (grad m) (grad m').
Proof.
  intros M a b. unfold grad. eapply rsim_bind; [apply total_deg_rsim; exact M|]. intros x x' _ <-.
  eapply rsim_bind; [apply total_deg_rsim; exact M|]. intros y y' _ <-. reflexivity.
Qed.
Lemma lex_sim : ord_sim lex_cmp lex_cmp.
Proof. intros a b. apply rsim_refl. Qed.
Lemma revlex_sim : ord_sim revlex_cmp revlex_cmp.
Proof. intros a b. apply rsim_refl. Qed.
Lemma grlex_sim m m' : mode_le m m' -> ord_sim (grlex_cmp m) (grlex_cmp m').
Proof.
  intros M a b. unfold grlex_cmp. eapply rsim_bind; [apply grad_sim; exact M|]. intros c c' _ <-.
  destruct c; apply rsim_refl.
Qed.
Lemma grevlex_sim m m' : mode_le m m' -> ord_sim (grevlex_cmp m) (grevlex_cmp m').
Proof.
  intros M a b. unfold grevlex_cmp. eapply rsim_bind; [apply grad_sim; exact M|]. intros c c' _ <-.
  destruct c; apply rsim_refl.
Qed.

Section Poly.
Context {F F' : FieldImpl} {R : F -> F' -> Prop} (X : FieldSim F F' R) (m m' : mode) (M : mode_le m m').

Definition trel (t : term F) (t' : term F') : Prop := R (coef t) (coef t') /\ tdeg t = tdeg t'.
Notation prel := (Forall2 trel).

Lemma term_is_zero_rel t t' : trel t t' -> term_is_zero t = term_is_zero t'.
Proof. intros [H _]. apply (s_eq0 _ _ _ X). exact H. Qed.
Lemma term_zero_rel : trel term_zero term_zero.
Proof. split; [apply X|reflexivity]. Qed.
Lemma term_new_rel c c' d : R c c' -> trel (term_new c d) (term_new c' d).
Proof. intros H. unfold term_new. rewrite (s_eq0 _ _ _ X _ _ H). destruct (feqb c' f0); [apply term_zero_rel|]. split; [exact H|reflexivity]. Qed.
Lemma term_var_rel i d : trel (term_var i d) (term_var i d).
Proof. unfold term_var. destruct (d =? 0); split; try reflexivity; apply X. Qed.
Lemma poly_is_zero_rel p p' : prel p p' -> poly_is_zero p = poly_is_zero p'.
Proof. destruct 1; reflexivity. Qed.
Lemma poly_new_rel l l' : prel l l' -> prel (poly_new l) (poly_new l').
Proof. apply filter_rel. intros a a' H. rewrite (term_is_zero_rel _ _ H). reflexivity. Qed.
Lemma poly_from_term_rel t t' : trel t t' -> prel (poly_from_term t) (poly_from_term t').
Proof. intros H. unfold poly_from_term. rewrite (term_is_zero_rel _ _ H). destruct (term_is_zero t'); repeat constructor; apply H. Qed.
Lemma poly_from_coef_rel c c' : R c c' -> prel (poly_from_coef c) (poly_from_coef c').
Proof. intros H. unfold poly_from_coef. rewrite (s_eq0 _ _ _ X _ _ H). destruct (feqb c' f0); repeat constructor. exact H. Qed.

Lemma term_eval_rsim t t' x x' : trel t t' -> Forall (fun d => d <= 255) (tdeg t) -> Forall2 R x x' ->
  rsim R (term_eval t x) (term_eval t' x').
Proof.
  intros [Hc Hd] B Hx. unfold term_eval. rewrite <- Hd, (Forall2_length Hx).
  destruct (length x' <? mdeg_len (tdeg t)); [reflexivity|].
  apply (foldM_rsim (fun (p : nat * F) (p' : nat * F') => (fst p = fst p' /\ fst p <= 255) /\ R (snd p) (snd p'))); [| |exact Hc].
  - intros s s' [d v] [d' v'] Hs [[Ed Bd] Hv]. cbn in *. subst d'.
    eapply rsim_bind; [apply (s_pow _ _ _ X); [exact Hv|lia]|]. intros w w' _ Hw. apply (s_mul _ _ _ X); assumption.
  - clear -B Hx. revert x x' Hx. induction B as [|d ds Bd _ IH]; intros x x' Hx; cbn; [constructor|].
    destruct Hx; constructor; [|apply IH; assumption]. repeat split; assumption.
Qed.
Lemma term_eval_nf t t' x x' : trel t t' -> Forall (fun d => d <= 255) (tdeg t) -> Forall2 R x x' -> term_eval t x <> NoFuel.
Proof.
  intros [Hc Hd] B Hx. unfold term_eval. destruct (length x <? mdeg_len (tdeg t)); [discriminate|].
  clear Hd. revert Hc. generalize (coef t) (coef t'). intros c c' Hc. revert c c' Hc x x' Hx.
  induction B as [|d ds Bd _ IH]; intros c c' Hc x x' Hx; cbn; [discriminate|].
  destruct Hx as [|v v' x x' Hv Hx]; cbn; [discriminate|].
  assert (Bd' : (0 <= Z.of_nat d <= 255)%Z) by lia.
  pose proof (s_pow _ _ _ X _ _ _ Hv Bd') as P. pose proof (s_pow_nf _ _ _ X _ _ _ Hv Bd') as N.
  destruct (fpowi32 v (Z.of_nat d)) as [w|k|]; cbn in *; [|discriminate|congruence].
  destruct (fpowi32 v' (Z.of_nat d)) as [w'| |]; try contradiction.
  pose proof (s_mul _ _ _ X _ _ _ _ Hc P) as Q. pose proof (s_mul_nf _ _ _ X _ _ _ _ Hc P) as N2.
  destruct (fmul c w) as [e|k|]; cbn in *; [|discriminate|congruence].
  destruct (fmul c' w') as [e'| |]; try contradiction. exact (IH _ _ Q _ _ Hx).
Qed.
Lemma poly_eval_rsim p p' x x' : prel p p' -> Forall (fun t => Forall (fun d => d <= 255) (tdeg t)) p -> Forall2 R x x' ->
  rsim R (poly_eval p x) (poly_eval p' x').
Proof.
  intros H B Hx. apply (s_sum _ _ _ X).
  - revert B. induction H as [|t t' p p' Ht _ IH]; intros B; cbn; [constructor|].
    inversion_clear B. constructor; [apply term_eval_rsim; assumption|apply IH; assumption].
  - revert B. induction H as [|t t' p p' Ht _ IH]; intros B; cbn; [constructor|].
    inversion_clear B. constructor; [eapply term_eval_nf; eassumption|apply IH; assumption].
Qed.

Lemma term_divides_rel s t s' t' : trel s s' -> trel t t' -> term_divides s t = term_divides s' t'.
Proof. intros H [_ E]. unfold term_divides. rewrite (term_is_zero_rel _ _ H), E. destruct H as [_ ->]. reflexivity. Qed.
Lemma term_try_div_rsim s t s' t' : trel s s' -> trel t t' ->
  rsim (orel trel) (term_try_div s t) (term_try_div s' t').
Proof.
  intros H G. unfold term_try_div. rewrite (term_is_zero_rel _ _ H), (term_is_zero_rel _ _ G).
  destruct (term_is_zero s'); [apply term_zero_rel|]. destruct (term_is_zero t') eqn:E; [exact I|].
  rewrite <- (term_is_zero_rel _ _ G) in E. destruct H as [Hc Hd], G as [Gc Gd].
  eapply rsim_bind; [apply (s_div _ _ _ X); assumption|]. intros c c' _ Hcc. rewrite Hd, Gd.
  destruct (mdeg_checked_sub (tdeg s') (tdeg t')); [|exact I]. split; [exact Hcc|reflexivity].
Qed.
Lemma term_add_rsim s t s' t' : trel s s' -> trel t t' -> rsim prel (term_add s t) (term_add s' t').
Proof.
  intros H G. unfold term_add. rewrite (term_is_zero_rel _ _ H), (term_is_zero_rel _ _ G).
  destruct (term_is_zero s'); [apply poly_from_term_rel; exact G|].
  destruct (term_is_zero t'); [apply poly_from_term_rel; exact H|].
  pose proof H as [Hc Hd]. pose proof G as [Gc Gd]. rewrite Hd, Gd. destruct (mdeg_eqb (tdeg s') (tdeg t')).
  - eapply rsim_bind; [apply (s_add _ _ _ X); assumption|]. intros c c' _ Hcc. apply poly_from_term_rel, term_new_rel. exact Hcc.
  - cbn. repeat constructor; assumption.
Qed.
Lemma poly_add_term_rsim p p' t t' : prel p p' -> trel t t' -> rsim prel (poly_add_term p t) (poly_add_term p' t').
Proof.
  intros H G. unfold poly_add_term. rewrite (poly_is_zero_rel _ _ H), (term_is_zero_rel _ _ G).
  destruct (poly_is_zero p'); [apply poly_from_term_rel; exact G|]. destruct (term_is_zero t'); [exact H|].
  rewrite (position_rel trel _ (fun s => mdeg_eqb (tdeg s) (tdeg t')) p p'); [|intros a a' [_ Ha]; rewrite Ha; destruct G as [_ ->]; reflexivity|exact H].
  destruct (position _ p') as [i|].
  - eapply rsim_bind; [apply vget_rsim; exact H|]. intros a a' _ [Ac Ad]. destruct G as [Gc Gd].
    eapply rsim_bind; [apply (s_add _ _ _ X); assumption|]. intros c c' _ Hc. cbn zeta.
    assert (T : trel (mkterm c (tdeg a)) (mkterm c' (tdeg a'))) by (split; assumption).
    rewrite (term_is_zero_rel _ _ T). destruct (term_is_zero _); apply rsim_Ok; [apply list_remove_rel|apply list_set_rel]; assumption.
  - apply rsim_Ok. apply Forall2_app; auto.
Qed.
Lemma poly_add_rsim p q p' q' : prel p p' -> prel q q' -> rsim prel (poly_add p q) (poly_add p' q').
Proof. intros H G. apply (foldM_rsim trel); [|exact G|exact H]. intros. apply poly_add_term_rsim; assumption. Qed.
Lemma term_neg_rsim t t' : trel t t' -> rsim trel (term_neg t) (term_neg t').
Proof. intros [H G]. unfold term_neg. eapply rsim_bind; [apply (s_neg _ _ _ X); exact H|]. intros c c' _ Hc. split; assumption. Qed.
Lemma poly_neg_rsim p p' : prel p p' -> rsim prel (poly_neg p) (poly_neg p').
Proof. apply mapM_rsim. exact term_neg_rsim. Qed.
Lemma term_sub_rsim s t s' t' : trel s s' -> trel t t' -> rsim prel (term_sub s t) (term_sub s' t').
Proof. intros H G. unfold term_sub. eapply rsim_bind; [apply term_neg_rsim; exact G|]. intros n n' _ Hn. apply term_add_rsim; assumption. Qed.
Lemma term_sub_poly_rsim t p t' p' : trel t t' -> prel p p' -> rsim prel (term_sub_poly t p) (term_sub_poly t' p').
Proof. intros H G. unfold term_sub_poly. eapply rsim_bind; [apply poly_neg_rsim; exact G|]. intros n n' _ Hn. apply poly_add_term_rsim; assumption. Qed.
Lemma poly_sub_term_rsim p t p' t' : prel p p' -> trel t t' -> rsim prel (poly_sub_term p t) (poly_sub_term p' t').
Proof. intros H G. unfold poly_sub_term. eapply rsim_bind; [apply term_neg_rsim; exact G|]. intros n n' _ Hn. apply poly_add_term_rsim; assumption. Qed.
Lemma poly_sub_rsim p q p' q' : prel p p' -> prel q q' -> rsim prel (poly_sub p q) (poly_sub p' q').
Proof. intros H G. unfold poly_sub. eapply rsim_bind; [apply poly_neg_rsim; exact G|]. intros n n' _ Hn. apply poly_add_rsim; assumption. Qed.
Lemma term_mul_rsim s t s' t' : trel s s' -> trel t t' -> rsim trel (term_mul m s t) (term_mul m' s' t').
Proof.
  intros H G. unfold term_mul. rewrite (term_is_zero_rel _ _ H), (term_is_zero_rel _ _ G).
  destruct (term_is_zero s' || term_is_zero t'); [apply term_zero_rel|]. destruct H as [Hc Hd], G as [Gc Gd].
  eapply rsim_bind; [apply (s_mul _ _ _ X); assumption|]. intros c c' _ Hcc. rewrite Hd, Gd.
  eapply rsim_bind; [apply mdeg_add_rsim; exact M|]. intros d d' _ <-. split; [exact Hcc|reflexivity].
Qed.
Lemma poly_mul_term_rsim p t p' t' : prel p p' -> trel t t' -> rsim prel (poly_mul_term m p t) (poly_mul_term m' p' t').
Proof.
  intros H G. unfold poly_mul_term. rewrite (term_is_zero_rel _ _ G), (poly_is_zero_rel _ _ H).
  destruct (term_is_zero t' || poly_is_zero p'); [constructor|]. apply (mapM_rsim trel); [|exact H].
  intros a a' Ha. apply term_mul_rsim; assumption.
Qed.
Lemma poly_scale_rsim p p' c c' : prel p p' -> R c c' -> rsim prel (poly_scale m p c) (poly_scale m' p' c').
Proof. intros H G. apply poly_mul_term_rsim; [exact H|]. split; [exact G|reflexivity]. Qed.
Lemma poly_mul_rsim p q p' q' : prel p p' -> prel q q' -> rsim prel (poly_mul m p q) (poly_mul m' p' q').
Proof.
  intros H G. unfold poly_mul. eapply rsim_bind; [apply (reduce_iter_rsim prel)|].
  - intros. apply poly_add_rsim; assumption.
  - eapply Forall2_map_l; [|exact H]. intros t t' Ht. apply poly_mul_term_rsim; assumption.
  - intros o o' _ Ho. destruct o, o'; cbn in *; try contradiction; [exact Ho|constructor].
Qed.
Lemma poly_div_scalar_rsim p p' c c' : prel p p' -> R c c' -> feqb c f0 = false ->
  rsim prel (poly_div_scalar m p c) (poly_div_scalar m' p' c').
Proof.
  intros H G N. unfold poly_div_scalar. eapply rsim_bind; [apply (s_inv _ _ _ X); assumption|].
  intros i i' _ Hi. apply poly_scale_rsim; assumption.
Qed.
End Poly.

(** a remainder has no zero coefficients, whatever the coefficient type does *)
Section Nonzero.
Context (m : mode) {F : FieldImpl} (O : ord_impl).
Definition nzp (p : poly F) : Prop := Forall (fun t => term_is_zero t = false) p.

Lemma nzp_from_term t : nzp (poly_from_term t).
Proof. unfold poly_from_term. destruct (term_is_zero t) eqn:E; repeat constructor. exact E. Qed.
Lemma nzp_add_term p t r : nzp p -> poly_add_term p t = Ok r -> nzp r.
Proof.
  intros H. unfold poly_add_term. destruct (poly_is_zero p); [intros [= <-]; apply nzp_from_term|].
  destruct (term_is_zero t) eqn:E; [intros [= <-]; exact H|].
  destruct (position _ p) as [i|].
  - destruct (vget p i) as [a| |]; cbn [bind]; try discriminate. destruct (fadd _ _) as [c| |]; cbn [bind]; try discriminate.
    destruct (term_is_zero (mkterm c (tdeg a))) eqn:Z; intros [= <-].
    + clear -H. unfold nzp in *. revert i. induction H as [|x l Hx Hl IH]; intros [|i]; cbn; auto.
    + clear -H Z. unfold nzp in *. revert i. induction H as [|x l Hx Hl IH]; intros [|i]; cbn; auto.
  - intros [= <-]. apply Forall_app. split; [exact H|]. constructor; [exact E|constructor].
Qed.
Lemma divide_loop_nzp n : forall f divs qs rem r q, nzp rem -> divide_loop m O n f divs qs rem = Ok (r, q) -> nzp r.
Proof.
  induction n as [|n IH]; intros f divs qs rem r q H; cbn.
  - destruct (leading_term O f) as [[t|]| |]; cbn; try discriminate. intros [= <- _]. exact H.
  - destruct (leading_term O f) as [[t|]| |]; cbn; try discriminate; [|intros [= <- _]; exact H].
    destruct (try_divisors O t divs qs) as [[[[qs' a] g]|]| |]; cbn; try discriminate.
    + destruct (term_mul_poly m a g) as [ag| |]; cbn; try discriminate.
      destruct (poly_sub f ag) as [f'| |]; cbn; try discriminate. apply IH. exact H.
    + destruct (sort_by (term_cmp O) f) as [fs| |]; cbn; try discriminate.
      destruct (vec_pop fs) as [f' [l|]]; [|apply IH; exact H].
      destruct (poly_add_term rem l) as [rem'| |] eqn:E; cbn; try discriminate. apply IH. eapply nzp_add_term; eassumption.
Qed.
Lemma max_by_in {A : Type} (f : A -> A -> res comparison) l a : max_by f l = Ok (Some a) -> In a l.
Proof.
  destruct l as [|x l]; cbn; [discriminate|].
  assert (G : forall x b, foldM (fun best y => c <- f best y ;; Ok (match c with Gt => best | _ => y end)) l x = Ok b -> In b (x :: l)).
  { clear. induction l as [|y l IH]; cbn; intros x b; [intros [= <-]; auto|].
    destruct (f x y) as [c| |]; cbn; try discriminate. intros E. apply IH in E. destruct c, E; auto. }
  destruct (foldM _ l x) as [b| |] eqn:E; cbn; try discriminate. intros [= <-]. eapply G. exact E.
Qed.
Lemma remainder_coef n f divs r q (c : F) : divide m O n f divs = Ok (r, q) -> leading_coef O r = Ok (Some c) -> feqb c f0 = false.
Proof.
  intros D. apply divide_loop_nzp in D; [|constructor]. unfold leading_coef, leading_term.
  destruct (max_by (term_cmp O) r) as [[t|]| |] eqn:E; cbn; try discriminate. intros [= <-].
  apply max_by_in in E. unfold nzp in D. rewrite Forall_forall in D. apply D in E. exact E.
Qed.
End Nonzero.

Section Comp.
Context {F F' : FieldImpl} {R : F -> F' -> Prop} (X : FieldSim F F' R) (m m' : mode) (M : mode_le m m')
        (O O' : ord_impl) (OO : ord_sim O O').
Notation trel := (@trel F F' R).
Notation prel := (Forall2 trel).

Lemma plen {l : list (poly F)} {l' : list (poly F')} : Forall2 prel l l' -> @length (poly F) l = @length (poly F') l'.
Proof. apply Forall2_length. Qed.
Lemma term_cmp_rsim s t s' t' : trel s s' -> trel t t' -> rsim eq (term_cmp O s t) (term_cmp O' s' t').
Proof. intros [_ H] [_ G]. unfold term_cmp. rewrite H, G. apply OO. Qed.
Lemma sort_terms_rsim p p' : prel p p' -> rsim prel (sort_terms O p) (sort_terms O' p').
Proof. apply sort_by_rsim. exact term_cmp_rsim. Qed.
Lemma leading_term_rsim p p' : prel p p' -> rsim (orel trel) (leading_term O p) (leading_term O' p').
Proof. apply max_by_rsim. exact term_cmp_rsim. Qed.
Lemma leading_coef_rsim p p' : prel p p' -> rsim (orel R) (leading_coef O p) (leading_coef O' p').
Proof.
  intros H. unfold leading_coef. eapply rsim_bind; [apply leading_term_rsim; exact H|].
  intros o o' _ Ho. destruct o as [t|], o' as [t'|]; cbn in *; try contradiction; auto. apply Ho.
Qed.
Definition tdrel (x : list (poly F) * term F * poly F) (x' : list (poly F') * term F' * poly F') : Prop :=
  Forall2 prel (fst (fst x)) (fst (fst x')) /\ trel (snd (fst x)) (snd (fst x')) /\ prel (snd x) (snd x').
Lemma try_divisors_rsim t t' ds ds' : trel t t' -> Forall2 prel ds ds' -> forall qs qs', Forall2 prel qs qs' ->
  rsim (orel tdrel) (try_divisors O t ds qs) (try_divisors O' t' ds' qs').
Proof.
  intros Ht H. induction H as [|g g' ds ds' Hg _ IH]; intros qs qs' Hq; cbn; [exact I|].
  destruct Hq as [|q q' qs qs' Hq Hqs]; [exact I|].
  assert (SK : rsim (orel tdrel)
     (r <- try_divisors O t ds qs ;; Ok (match r with None => None | Some (qs0, a, g') => Some (q :: qs0, a, g') end))
     (r <- try_divisors O' t' ds' qs' ;; Ok (match r with None => None | Some (qs0, a, g') => Some (q' :: qs0, a, g') end))).
  { eapply rsim_bind; [apply IH; exact Hqs|]. intros r r' _ Hr.
    destruct r as [[[a b] c]|], r' as [[[a' b'] c']|]; cbn in *; try contradiction; [|exact I].
    destruct Hr as [H1 [H2 H3]]. cbn in *. repeat split; cbn; try assumption; try constructor; try assumption; apply H2. }
  eapply rsim_bind; [apply leading_term_rsim; exact Hg|]. intros o o' _ Ho.
  destruct o as [l|], o' as [l'|]; cbn in Ho; try contradiction; [|exact SK].
  eapply rsim_bind; [apply (term_try_div_rsim X); [exact Ht|exact Ho]|]. intros d d' _ Hd.
  destruct d as [a|], d' as [a'|]; cbn in Hd; try contradiction; [|exact SK].
  eapply rsim_bind; [apply (poly_add_term_rsim X); [exact Hq|exact Hd]|]. intros p p' _ Hp.
  apply rsim_Ok. cbn. repeat split; cbn; try assumption; try constructor; try assumption; apply Hd.
Qed.
Lemma vec_pop_rel {A A' : Type} (Q : A -> A' -> Prop) l l' : Forall2 Q l l' ->
  Forall2 Q (fst (vec_pop l)) (fst (vec_pop l')) /\ orel Q (snd (vec_pop l)) (snd (vec_pop l')).
Proof.
  intros H. apply rev_rel in H. unfold vec_pop. destruct H as [|x x' r r' Hx H]; cbn; [split; auto|].
  split; [apply rev_rel; exact H|exact Hx].
Qed.
Definition drel (x : poly F * list (poly F)) (x' : poly F' * list (poly F')) : Prop :=
  prel (fst x) (fst x') /\ Forall2 prel (snd x) (snd x').
Lemma divide_loop_rsim n : forall f f' ds ds' qs qs' rem rem', prel f f' -> Forall2 prel ds ds' -> Forall2 prel qs qs' -> prel rem rem' ->
  rsim drel (divide_loop m O n f ds qs rem) (divide_loop m' O' n f' ds' qs' rem').
Proof.
  induction n as [|n IH]; intros f f' ds ds' qs qs' rem rem' Hf Hd Hq Hr; cbn.
  - eapply rsim_bind; [apply leading_term_rsim; exact Hf|]. intros o o' _ Ho.
    destruct o, o'; cbn in Ho; try contradiction; [reflexivity|]. split; assumption.
  - eapply rsim_bind; [apply leading_term_rsim; exact Hf|]. intros o o' _ Ho.
    destruct o as [t|], o' as [t'|]; cbn in Ho; try contradiction; [|split; assumption].
    eapply rsim_bind; [apply try_divisors_rsim; eassumption|]. intros r r' _ Hrr.
    destruct r as [[[a b] c]|], r' as [[[a' b'] c']|]; cbn in Hrr; try contradiction.
    + destruct Hrr as [H1 [H2 H3]]. cbn in *.
      eapply rsim_bind; [apply (poly_mul_term_rsim X m m' M); [exact H3|exact H2]|]. intros ag ag' _ Hag.
      eapply rsim_bind; [apply (poly_sub_rsim X); eassumption|]. intros g g' _ Hg. apply IH; assumption.
    + eapply rsim_bind; [apply sort_by_rsim; [exact term_cmp_rsim|exact Hf]|]. intros fs fs' _ Hfs.
      apply vec_pop_rel in Hfs. destruct (vec_pop fs) as [g [l|]], (vec_pop fs') as [g' [l'|]]; cbn in Hfs; destruct Hfs as [Hg Hl]; try contradiction.
      * eapply rsim_bind; [apply (poly_add_term_rsim X); eassumption|]. intros s s' _ Hs. apply IH; assumption.
      * apply IH; assumption.
Qed.
Lemma divide_rsim n f f' ds ds' : prel f f' -> Forall2 prel ds ds' -> rsim drel (divide m O n f ds) (divide m' O' n f' ds').
Proof.
  intros H G. unfold divide. rewrite (plen G). apply divide_loop_rsim; try assumption; [|constructor]. apply repeat_rel. constructor.
Qed.
Lemma monic_lcm_rel s t s' t' : trel s s' -> trel t t' -> trel (monic_lcm s t) (monic_lcm s' t').
Proof.
  intros H G. unfold monic_lcm. rewrite (term_is_zero_rel X _ _ H), (term_is_zero_rel X _ _ G).
  destruct (term_is_zero s' || term_is_zero t'); [apply (term_zero_rel X)|]. destruct H as [_ ->], G as [_ ->].
  split; [apply X|reflexivity].
Qed.
Lemma try_reduce_rsim f g f' g' : prel f f' -> prel g g' -> rsim (orel prel) (try_reduce m O f g) (try_reduce m' O' f' g').
Proof.
  intros H G. unfold try_reduce.
  eapply rsim_bind; [apply leading_term_rsim; exact H|]. intros o o' _ Ho. destruct o as [a|], o' as [a'|]; cbn in Ho; try contradiction; [|exact I].
  eapply rsim_bind; [apply leading_term_rsim; exact G|]. intros o o' _ Ho2. destruct o as [b|], o' as [b'|]; cbn in Ho2; try contradiction; [|exact I].
  pose proof (monic_lcm_rel _ _ _ _ Ho Ho2) as L. cbn zeta.
  eapply rsim_bind; [apply (term_try_div_rsim X); [exact L|exact Ho]|]. intros o o' _ H1. destruct o as [c|], o' as [c'|]; cbn in H1; try contradiction; [|exact I].
  eapply rsim_bind; [apply (poly_mul_term_rsim X m m' M); [exact H|exact H1]|]. intros af af' _ Haf.
  eapply rsim_bind; [apply (term_try_div_rsim X); [exact L|exact Ho2]|]. intros o o' _ H2. destruct o as [d|], o' as [d'|]; cbn in H2; try contradiction; [|exact I].
  eapply rsim_bind; [apply (poly_mul_term_rsim X m m' M); [exact G|exact H2]|]. intros bg bg' _ Hbg.
  eapply rsim_bind; [apply (poly_sub_rsim X); eassumption|]. intros s s' _ Hs. exact Hs.
Qed.
Lemma criterion_loop_rsim n gs gs' ps : Forall2 prel gs gs' -> rsim eq (criterion_loop m O n gs ps) (criterion_loop m' O' n gs' ps).
Proof.
  intros H. induction ps as [|[i j] ps IH]; cbn; [reflexivity|].
  eapply rsim_bind; [apply vget_rsim; exact H|]. intros a a' _ Ha. eapply rsim_bind; [apply vget_rsim; exact H|]. intros b b' _ Hb.
  eapply rsim_bind; [apply try_reduce_rsim; eassumption|]. intros o o' _ Ho. destruct o as [s|], o' as [s'|]; cbn in Ho; try contradiction; [|reflexivity].
  eapply rsim_bind; [apply divide_rsim; eassumption|]. intros [r q] [r' q'] _ [Hr _]. cbn in Hr.
  rewrite (poly_is_zero_rel _ _ Hr). destruct (poly_is_zero r'); [exact IH|reflexivity].
Qed.
Lemma criterion_rsim n gs gs' : Forall2 prel gs gs' -> rsim eq (buchberger_criterion m O n gs) (buchberger_criterion m' O' n gs').
Proof. intros H. unfold buchberger_criterion. rewrite (plen H). apply criterion_loop_rsim. exact H. Qed.
Lemma extend_inner_rsim n gs gs' i js : Forall2 prel gs gs' -> rsim (orel prel) (extend_inner m O n gs i js) (extend_inner m' O' n gs' i js).
Proof.
  intros H. induction js as [|j js IH]; cbn; [exact I|].
  eapply rsim_bind; [apply vget_rsim; exact H|]. intros a a' _ Ha. eapply rsim_bind; [apply vget_rsim; exact H|]. intros b b' _ Hb.
  eapply rsim_bind; [apply try_reduce_rsim; eassumption|]. intros o o' _ Ho.
  eapply rsim_bind; [apply unwrap_rsim; exact Ho|]. intros s s' _ Hs.
  eapply rsim_bind; [apply divide_rsim; eassumption|]. intros [r q] [r' q'] ED [Hr _]. cbn in Hr.
  eapply rsim_bind; [apply leading_coef_rsim; exact Hr|]. intros c c' EC Hc. destruct c as [c|], c' as [c'|]; cbn in Hc; try contradiction; [|exact IH].
  eapply rsim_bind; [apply (poly_div_scalar_rsim X m m' M); [exact Hr|exact Hc|eapply remainder_coef; eassumption]|]. intros p p' _ Hp. exact Hp.
Qed.
Lemma extend_loop_rsim d n : forall gs gs' i, Forall2 prel gs gs' -> rsim (Forall2 prel) (extend_loop m O d n gs i) (extend_loop m' O' d n gs' i).
Proof.
  induction n as [|n IH]; intros gs gs' i H; cbn [extend_loop]; rewrite (plen H); (destruct (i <? _); [|exact H]); [reflexivity|].
  eapply rsim_bind; [apply extend_inner_rsim; exact H|]. intros o o' _ Ho. destruct o as [r|], o' as [r'|]; cbn in Ho; try contradiction; apply IH.
  - apply Forall2_app; auto.
  - exact H.
Qed.
Lemma minimize_find_rsim gs gs' ps : Forall2 prel gs gs' -> rsim eq (minimize_find O gs ps) (minimize_find O' gs' ps).
Proof.
  intros H. induction ps as [|[i j] ps IH]; cbn; [reflexivity|].
  eapply rsim_bind; [apply vget_rsim; exact H|]. intros a a' _ Ha.
  eapply rsim_bind; [apply leading_term_rsim; exact Ha|]. intros l l' _ Hl. eapply rsim_bind; [apply unwrap_rsim; exact Hl|]. intros t t' _ Ht.
  eapply rsim_bind; [apply vget_rsim; exact H|]. intros b b' _ Hb.
  eapply rsim_bind; [apply leading_term_rsim; exact Hb|]. intros k k' _ Hk. eapply rsim_bind; [apply unwrap_rsim; exact Hk|]. intros u u' _ Hu.
  rewrite (term_divides_rel X _ _ _ _ Ht Hu). destruct (term_divides t' u'); [reflexivity|exact IH].
Qed.
Lemma minimize_loop_rsim n : forall gs gs', Forall2 prel gs gs' -> rsim (Forall2 prel) (minimize_loop O n gs) (minimize_loop O' n gs').
Proof.
  induction n as [|n IH]; intros gs gs' H; cbn; [reflexivity|]. rewrite (plen H).
  eapply rsim_bind; [apply minimize_find_rsim; exact H|]. intros o o' _ <-. destruct o as [i|]; [|exact H]. apply IH, list_remove_rel, H.
Qed.
Lemma any_term_divisible_rsim g g' ts ts' : prel g g' -> prel ts ts' -> rsim eq (any_term_divisible O g ts) (any_term_divisible O' g' ts').
Proof.
  intros H G. induction G as [|t t' ts ts' Ht _ IH]; cbn; [reflexivity|].
  eapply rsim_bind; [apply leading_term_rsim; exact H|]. intros l l' _ Hl. eapply rsim_bind; [apply unwrap_rsim; exact Hl|]. intros u u' _ Hu.
  rewrite (term_divides_rel X _ _ _ _ Hu Ht). destruct (term_divides u' t'); [reflexivity|exact IH].
Qed.
Lemma reduce_find_rsim gs gs' ps : Forall2 prel gs gs' -> rsim eq (reduce_find O gs ps) (reduce_find O' gs' ps).
Proof.
  intros H. induction ps as [|[i j] ps IH]; cbn; [reflexivity|].
  eapply rsim_bind; [apply vget_rsim; exact H|]. intros a a' _ Ha.
  eapply (rsim_bind prel). { destruct Ha; [constructor|]. apply vget_rsim. exact H. }
  intros b b' _ Hb. eapply rsim_bind; [apply any_term_divisible_rsim; eassumption|]. intros c c' _ <-. destruct c; [reflexivity|exact IH].
Qed.
Lemma reduce_loop_rsim d n : forall gs gs', Forall2 prel gs gs' -> rsim (Forall2 prel) (reduce_loop m O d n gs) (reduce_loop m' O' d n gs').
Proof.
  induction n as [|n IH]; intros gs gs' H; cbn; [reflexivity|]. rewrite (plen H).
  eapply rsim_bind; [apply reduce_find_rsim; exact H|]. intros o o' _ <-. destruct o as [i|]; [|exact H].
  eapply rsim_bind; [apply vget_rsim; exact H|]. intros g g' _ Hg. cbn zeta.
  eapply rsim_bind; [apply divide_rsim; [exact Hg|apply list_remove_rel; exact H]|]. intros [r q] [r' q'] _ [Hr _]. cbn in Hr.
  apply IH. apply Forall2_app; [apply list_remove_rel; exact H|auto].
Qed.
Lemma buchberger_rsim n gs gs' : Forall2 prel gs gs' -> rsim (Forall2 prel) (buchberger_algorithm m O n gs) (buchberger_algorithm m' O' n gs').
Proof.
  intros H. unfold buchberger_algorithm. eapply rsim_bind; [apply extend_loop_rsim; exact H|]. intros g g' _ Hg.
  eapply rsim_bind; [apply minimize_loop_rsim; exact Hg|]. intros h h' _ Hh. apply reduce_loop_rsim. exact Hh.
Qed.
End Comp.
