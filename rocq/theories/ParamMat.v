(** * Two runs side by side: matrices, elimination, cones. *)
From Verif Require Import Base BaseLemmas FieldIface UtilModel MatModel AlgModel ConeModel Param.

Record StabSim {F F' : FieldImpl} (R : F -> F' -> Prop) (T : StabImpl F) (T' : StabImpl F') : Prop := {
  t_eps : forall x x', R x x' -> feps T x f0 = feps T' x' f0;
  t_nz : forall x x', R x x' -> feps T x f0 = false -> feqb x f0 = false;
  t_stab : forall x y x' y', R x x' -> R y y' -> rsim eq (fstab T x y) (fstab T' x' y');
  t_pcmp : forall x y x' y', R x x' -> R y y' -> rsim eq (fpcmp T x y) (fpcmp T' x' y')
}.

Section Mat.
Context {F F' : FieldImpl} {R : F -> F' -> Prop} (X : FieldSim F F' R).

Record mrel (a : mat F) (a' : mat F') : Prop := {
  mr_e : Forall2 R (ments a) (ments a');
  mr_r : mrows a = mrows a';
  mr_c : mcols a = mcols a'
}.
Lemma mrel_mk es es' r c : Forall2 R es es' -> mrel (mkmat es r c) (mkmat es' r c).
Proof. intros H. constructor; cbn; auto. Qed.

Lemma mget_rsim a a' r c : mrel a a' -> rsim R (mget a r c) (mget a' r c).
Proof. intros [H _ C]. unfold mget. rewrite C. apply vget_rsim. exact H. Qed.
Lemma mset_rsim a a' r c x x' : mrel a a' -> R x x' -> rsim mrel (mset a r c x) (mset a' r c x').
Proof.
  intros [H E C] Hx. unfold mset. rewrite C, E. eapply rsim_bind; [apply vset_rsim; eassumption|].
  intros es es' _ He. apply mrel_mk. exact He.
Qed.

(** one step: close the goal or peel a bind *)
Ltac st := match goal with
  | |- rsim _ (bind _ _) (bind _ _) => eapply rsim_bind; [|intros ? ? ? ?]
  | H : mrel ?a ?a' |- rsim _ (mget ?a _ _) (mget ?a' _ _) => eapply mget_rsim; exact H
  | H : mrel ?a ?a' |- rsim _ (mset ?a _ _ _) (mset ?a' _ _ _) => eapply mset_rsim; [exact H|assumption]
  | |- rsim _ (fmul _ _) (fmul _ _) => apply (s_mul _ _ _ X); assumption
  | |- rsim _ (fadd _ _) (fadd _ _) => apply (s_add _ _ _ X); assumption
  | |- rsim _ (fsub f0 _) (fsub f0 _) => apply (s_sub _ _ _ X); [apply X|assumption]
  | |- rsim _ (Panic _) (Panic _) => apply rsim_Panic
  | |- rsim mrel (Ok (mkmat _ _ _)) (Ok (mkmat _ _ _)) => apply mrel_mk; assumption
  | H : ?P |- ?P => exact H
  end.
Ltac sts := repeat st.

Lemma mat_swap_rsim a a' p q : mrel a a' -> rsim mrel (mat_swap a p q) (mat_swap a' p q).
Proof. intros H. unfold mat_swap. sts. Qed.
Lemma from_fn_rel r c f f' : (forall i j, R (f i j) (f' i j)) -> mrel (from_fn r c f) (from_fn r c f').
Proof. intros H. apply mrel_mk. eapply Forall2_map_l; [|apply Forall2_eq]. intros p p' <-. apply H. Qed.
Lemma from_fnM_rsim r c f f' : (forall i j, rsim R (f i j) (f' i j)) -> rsim mrel (from_fnM r c f) (from_fnM r c f').
Proof.
  intros H. unfold from_fnM. eapply rsim_bind; [apply (mapM_rsim eq); [|apply Forall2_eq]|].
  - intros p p' <-. apply H.
  - intros es es' _ He. apply mrel_mk. exact He.
Qed.
Ltac ifs := intros; repeat match goal with |- R (if ?b then _ else _) (if ?b then _ else _) => destruct b end; try apply X; try assumption.
Lemma mat_identity_rel n : mrel (mat_identity n) (mat_identity n).
Proof. apply from_fn_rel. ifs. Qed.
Lemma mat_zero_rel r c : mrel (mat_zero r c) (mat_zero r c).
Proof. apply from_fn_rel. ifs. Qed.
Lemma mat_e_rel k n : mrel (mat_e k n) (mat_e k n).
Proof. apply mrel_mk. eapply Forall2_map_l; [|apply Forall2_eq]. intros p p' <-. ifs. Qed.
Lemma mat_scale_mat_rel n i s s' : R s s' -> mrel (mat_scale_mat n i s) (mat_scale_mat n i s').
Proof. intros H. apply from_fn_rel. ifs. Qed.
Lemma mat_permutation_rel n i j : mrel (mat_permutation n i j) (mat_permutation n i j).
Proof. apply from_fn_rel. ifs. Qed.
Lemma mat_replacement_rel n i j s s' : R s s' -> mrel (mat_replacement n i j s) (mat_replacement n i j s').
Proof. intros H. apply from_fn_rel. ifs. Qed.
Lemma mat_permutation_from_vec_rsim p : rsim mrel (mat_permutation_from_vec p) (mat_permutation_from_vec p).
Proof.
  apply from_fnM_rsim. intros. eapply rsim_bind; [apply rsim_refl|]. intros x x' _ <-. apply rsim_Ok. ifs.
Qed.
Lemma mat_from_col_vectors_rsim vs vs' : Forall2 mrel vs vs' -> rsim mrel (mat_from_col_vectors vs) (mat_from_col_vectors vs').
Proof.
  intros H. unfold mat_from_col_vectors. eapply rsim_bind; [apply vget_rsim; exact H|]. intros v v' _ Hv.
  rewrite (Forall2_length H), (mr_r _ _ Hv). apply from_fnM_rsim. intros. eapply rsim_bind; [apply vget_rsim; exact H|]. intros w w' _ Hw. sts.
Qed.
Lemma mat_from_row_vectors_rsim vs vs' : Forall2 mrel vs vs' -> rsim mrel (mat_from_row_vectors vs) (mat_from_row_vectors vs').
Proof.
  intros H. unfold mat_from_row_vectors. eapply rsim_bind; [apply vget_rsim; exact H|]. intros v v' _ Hv.
  rewrite (Forall2_length H), (mr_r _ _ Hv). apply from_fnM_rsim. intros. eapply rsim_bind; [apply vget_rsim; exact H|]. intros w w' _ Hw. sts.
Qed.
Lemma mat_transpose_rsim a a' : mrel a a' -> rsim mrel (mat_transpose a) (mat_transpose a').
Proof. intros H. unfold mat_transpose. rewrite (mr_r _ _ H), (mr_c _ _ H). apply from_fnM_rsim. intros. sts. Qed.

Lemma fold_rsim {A : Type} {B B' : Type} (Q : B -> B' -> Prop) f f' (l : list A) s s' :
  (forall s s' x, Q s s' -> rsim Q (f s x) (f' s' x)) -> Q s s' -> rsim Q (foldM f l s) (foldM f' l s').
Proof. intros E H. apply (foldM_rsim eq Q); [|apply Forall2_eq|exact H]. intros t t' x x' Ht <-. apply E. exact Ht. Qed.
Lemma map_rsim {A : Type} {B B' : Type} (Q : B -> B' -> Prop) f f' (l : list A) :
  (forall x, rsim Q (f x) (f' x)) -> rsim (Forall2 Q) (mapM f l) (mapM f' l).
Proof. intros E. apply (mapM_rsim eq Q); [|apply Forall2_eq]. intros x x' <-. apply E. Qed.

Lemma mat_scale_row_rsim a a' i s s' : mrel a a' -> R s s' -> rsim mrel (mat_scale_row a i s) (mat_scale_row a' i s').
Proof. intros H G. unfold mat_scale_row. rewrite (mr_c _ _ H). apply fold_rsim; [|exact H]. intros. sts. Qed.
Lemma mat_permute_rows_rsim a a' i j : mrel a a' -> rsim mrel (mat_permute_rows a i j) (mat_permute_rows a' i j).
Proof. intros H. unfold mat_permute_rows. rewrite (mr_c _ _ H). apply fold_rsim; [|exact H]. intros. sts. Qed.
Lemma mat_replace_row_rsim a a' i j s s' : mrel a a' -> R s s' -> rsim mrel (mat_replace_row a i j s) (mat_replace_row a' i j s').
Proof. intros H G. unfold mat_replace_row. rewrite (mr_c _ _ H). apply fold_rsim; [|exact H]. intros. sts. Qed.
Lemma mat_scale_rsim a a' s s' : mrel a a' -> R s s' -> rsim mrel (mat_scale a s) (mat_scale a' s').
Proof.
  intros H G. unfold mat_scale. rewrite (mr_r _ _ H), (mr_c _ _ H). eapply rsim_bind; [apply (mapM_rsim R); [|apply H]|].
  - intros. sts.
  - intros. sts.
Qed.
Lemma mat_row_slice_rsim a a' r : mrel a a' -> rsim (Forall2 R) (mat_row_slice a r) (mat_row_slice a' r).
Proof.
  intros [H _ C]. unfold mat_row_slice. rewrite C, (Forall2_length H). destruct (_ <=? _); [|apply rsim_Panic].
  apply rsim_Ok. apply firstn_rel, skipn_rel, H.
Qed.
Lemma mat_from_iter_rel l l' : Forall2 R l l' -> mrel (mat_from_iter l) (mat_from_iter l').
Proof. intros H. unfold mat_from_iter. rewrite (Forall2_length H). apply mrel_mk. exact H. Qed.
Lemma mat_get_row_rsim a a' r : mrel a a' -> rsim mrel (mat_get_row a r) (mat_get_row a' r).
Proof. intros H. unfold mat_get_row. eapply rsim_bind; [apply mat_row_slice_rsim; exact H|]. intros l l' _ Hl. apply mat_from_iter_rel. exact Hl. Qed.
Lemma mat_col_list_rsim a a' c : mrel a a' -> rsim (Forall2 R) (mat_col_list a c) (mat_col_list a' c).
Proof. intros H. unfold mat_col_list. rewrite (mr_r _ _ H). apply map_rsim. intros. sts. Qed.
Lemma mat_get_col_rsim a a' c : mrel a a' -> rsim mrel (mat_get_col a c) (mat_get_col a' c).
Proof. intros H. unfold mat_get_col. eapply rsim_bind; [apply mat_col_list_rsim; exact H|]. intros l l' _ Hl. apply mat_from_iter_rel. exact Hl. Qed.
Lemma mat_frobenius_rsim a a' : mrel a a' -> rsim R (mat_frobenius a) (mat_frobenius a').
Proof. intros H. apply (foldM_rsim R R); [|apply H|apply X]. intros. sts. Qed.
Lemma mat_dot_rsim a b a' b' : mrel a a' -> mrel b b' -> rsim R (mat_dot a b) (mat_dot a' b').
Proof.
  intros H G. apply (foldM_rsim (prel2 R R) R); [|apply combine_rel; [apply H|apply G]|apply X].
  intros s s' p p' Hs [H1 H2]. sts.
Qed.
Lemma all_zero_at_rsim a a' ps : mrel a a' -> rsim eq (all_zero_at a ps) (all_zero_at a' ps).
Proof.
  intros H. induction ps as [|p ps IH]; cbn; [reflexivity|]. eapply rsim_bind; [apply mget_rsim; exact H|]. intros x x' _ Hx.
  rewrite (s_eq0 _ _ _ X _ _ Hx). destruct (feqb x' f0); [exact IH|reflexivity].
Qed.
Lemma mat_is_upper_rsim a a' : mrel a a' -> rsim eq (mat_is_upper a) (mat_is_upper a').
Proof. intros H. unfold mat_is_upper. rewrite (mr_r _ _ H), (mr_c _ _ H). apply all_zero_at_rsim. exact H. Qed.
Lemma mat_is_lower_rsim a a' : mrel a a' -> rsim eq (mat_is_lower a) (mat_is_lower a').
Proof. intros H. unfold mat_is_lower. rewrite (mr_r _ _ H), (mr_c _ _ H). apply all_zero_at_rsim. exact H. Qed.
Lemma mat_add_rsim a b a' b' : mrel a a' -> mrel b b' -> rsim mrel (mat_add a b) (mat_add a' b').
Proof.
  intros H G. unfold mat_add. rewrite (mr_r _ _ H), (mr_c _ _ H), (mr_r _ _ G), (mr_c _ _ G).
  destruct (_ && _); [|apply rsim_Panic]. eapply rsim_bind; [apply (mapM_rsim (prel2 R R)); [|apply combine_rel; [apply H|apply G]]|].
  - intros p p' [H1 H2]. sts.
  - intros. sts.
Qed.
Lemma mat_mul_scalar_rsim a a' s s' : mrel a a' -> R s s' -> rsim mrel (mat_mul_scalar a s) (mat_mul_scalar a' s').
Proof. apply mat_scale_rsim. Qed.
Lemma mat_mul_rsim a b a' b' : mrel a a' -> mrel b b' -> rsim mrel (mat_mul a b) (mat_mul a' b').
Proof.
  intros H G. unfold mat_mul. rewrite (mr_r _ _ H), (mr_c _ _ H), (mr_r _ _ G), (mr_c _ _ G).
  destruct (mcols a' =? mrows b'); [|apply rsim_Panic]. apply from_fnM_rsim. intros.
  eapply rsim_bind; [apply mat_row_slice_rsim; exact H|]. intros l l' _ Hl.
  apply (foldM_rsim (prel2 R eq) R); [|apply combine_rel; [exact Hl|apply Forall2_eq]|apply X].
  intros s s' p p' Hs [H1 H2]. rewrite H2. sts.
Qed.
End Mat.

Section Alg.
Context {F F' : FieldImpl} {R : F -> F' -> Prop} (X : FieldSim F F' R) (T : StabImpl F) (T' : StabImpl F') (Y : StabSim R T T').
Notation mrel := (@mrel F F' R).

Ltac st := match goal with
  | |- rsim _ (bind _ _) (bind _ _) => eapply rsim_bind; [|intros ? ? ? ?]
  | H : mrel ?a ?a' |- rsim _ (mget ?a _ _) (mget ?a' _ _) => eapply mget_rsim; exact H
  | H : mrel ?a ?a' |- rsim _ (mset ?a _ _ _) (mset ?a' _ _ _) => eapply mset_rsim; [exact H|assumption]
  | |- rsim _ (fmul _ _) (fmul _ _) => apply (s_mul _ _ _ X); eassumption
  | |- rsim _ (fadd _ _) (fadd _ _) => apply (s_add _ _ _ X); eassumption
  | |- rsim _ (fsub f0 _) (fsub f0 _) => apply (s_sub _ _ _ X); [apply X|first [assumption|apply X]]
  | |- rsim _ (Panic _) (Panic _) => apply rsim_Panic
  | |- rsim mrel (Ok (mkmat _ _ _)) (Ok (mkmat _ _ _)) => apply mrel_mk; eassumption
  | |- rsim _ (mat_replace_row _ _ _ _) (mat_replace_row _ _ _ _) => eapply (mat_replace_row_rsim X); eassumption
  | |- rsim _ (mat_scale_row _ _ _) (mat_scale_row _ _ _) => eapply (mat_scale_row_rsim X); eassumption
  | |- rsim _ (mat_permute_rows _ _ _) (mat_permute_rows _ _ _) => eapply mat_permute_rows_rsim; eassumption
  | H : ?P |- ?P => exact H
  end.
Ltac sts := repeat st.

Lemma mat_epsilon_equals_rsim a b a' b' : mrel a a' -> mrel b b' -> rsim eq (mat_epsilon_equals T a b) (mat_epsilon_equals T' a' b').
Proof.
  intros H G. unfold mat_epsilon_equals.
  eapply rsim_bind; [apply (s_sub _ _ _ X); apply X|]. intros m m' _ Hm.
  eapply rsim_bind; [apply (mat_mul_scalar_rsim X); eassumption|]. intros n n' _ Hn.
  eapply rsim_bind; [apply (mat_add_rsim X); eassumption|]. intros d d' _ Hd.
  eapply rsim_bind; [apply (mat_frobenius_rsim X); eassumption|]. intros x x' _ Hx. apply (t_eps _ _ _ Y). exact Hx.
Qed.
Lemma get_max_index_rsim l l' : Forall2 R l l' -> rsim eq (get_max_index (fstab T) l) (get_max_index (fstab T') l').
Proof.
  intros H. unfold get_max_index. eapply rsim_bind.
  - apply (max_by_rsim (prel2 eq R)).
    + intros p q p' q' [_ H1] [_ H2]. eapply rsim_bind; [apply (t_stab _ _ _ Y); eassumption|]. intros c c' _ <-. apply rsim_refl.
    + unfold enumerate. rewrite (Forall2_length H). apply combine_rel; [apply Forall2_eq|exact H].
  - intros o o' _ Ho. eapply rsim_bind; [eapply unwrap_rsim; exact Ho|]. intros p p' _ [E _]. exact E.
Qed.
Lemma stable_column_index_rsim a a' c r : mrel a a' ->
  rsim (orel (fun (p : nat * F) (p' : nat * F') => fst p = fst p' /\ R (snd p) (snd p') /\ feqb (snd p) f0 = false))
       (stable_column_index T a c r) (stable_column_index T' a' c r).
Proof.
  intros H. unfold stable_column_index. eapply rsim_bind; [eapply mat_col_list_rsim; exact H|]. intros l l' _ Hl.
  eapply rsim_bind; [apply get_max_index_rsim, skipn_rel; exact Hl|]. intros i i' _ <-.
  eapply rsim_bind; [eapply mget_rsim; exact H|]. intros x x' _ Hx. rewrite <- (t_eps _ _ _ Y _ _ Hx).
  destruct (feps T x f0) eqn:E; cbn; [exact I|]. repeat split; [exact Hx|]. apply (t_nz _ _ _ Y _ _ Hx E).
Qed.
Lemma first_nonzero_rsim a a' r : mrel a a' -> rsim eq (first_nonzero T a r) (first_nonzero T' a' r).
Proof.
  intros H. unfold first_nonzero. eapply rsim_bind; [eapply mat_get_row_rsim; exact H|]. intros v v' _ Hv.
  apply (position_rel R); [|apply Hv]. intros x x' Hx. rewrite (t_eps _ _ _ Y _ _ Hx). reflexivity.
Qed.
Lemma zero_rows_rsim a a' : mrel a a' -> rsim eq (zero_rows T a) (zero_rows T' a').
Proof.
  intros H. unfold zero_rows. rewrite (mr_r _ _ H). eapply fold_rsim; [|reflexivity].
  intros s s' x <-. eapply rsim_bind; [eapply first_nonzero_rsim; exact H|]. intros o o' _ <-. reflexivity.
Qed.
Lemma permute_under_diagonal_rsim a a' i j : mrel a a' -> rsim mrel (permute_under_diagonal a i j) (permute_under_diagonal a' i j).
Proof. intros H. eapply fold_rsim; [|exact H]. intros. apply mat_swap_rsim. assumption. Qed.

Record lurel (s : lu_state) (s' : lu_state) : Prop := {
  lr_p : lu_p s = lu_p s'; lr_l : mrel (lu_l s) (lu_l s'); lr_u : mrel (lu_u s) (lu_u s') }.
Lemma lu_permute_rsim s s' i j : lurel s s' -> rsim lurel (lu_permute s i j) (lu_permute s' i j).
Proof.
  intros [H1 H2 H3]. unfold lu_permute. rewrite H1. eapply rsim_bind; [apply rsim_refl|]. intros p p' _ <-. st; [sts|].
  eapply rsim_bind; [eapply permute_under_diagonal_rsim; exact H2|]. intros l l' _ Hl. constructor; auto.
Qed.
Lemma lu_scale_row_rsim s s' r x x' : lurel s s' -> R x x' -> feqb x f0 = false -> rsim lurel (lu_scale_row s r x) (lu_scale_row s' r x').
Proof.
  intros [H1 H2 H3] Hx N. unfold lu_scale_row. st; [sts|]. eapply rsim_bind; [apply (s_div _ _ _ X); [apply X|exact Hx|exact N]|].
  intros i i' _ Hi. st; [sts|]. constructor; auto.
Qed.
Lemma lu_replace_rsim s s' r c : lurel s s' -> rsim lurel (lu_replace_col_under_row s r c) (lu_replace_col_under_row s' r c).
Proof.
  intros H. unfold lu_replace_col_under_row. rewrite (mr_r _ _ (lr_u _ _ H)). eapply fold_rsim; [|exact H].
  intros t t' x [H1 H2 H3]. sts. constructor; auto.
Qed.
Definition rrel {A A' : Type} (Q : A -> A' -> Prop) (x : nat * A) (x' : nat * A') : Prop := fst x = fst x' /\ Q (snd x) (snd x').
Lemma lu_step_rsim n s s' c : rrel lurel s s' -> rsim (rrel lurel) (lu_step T n s c) (lu_step T' n s' c).
Proof.
  destruct s as [r lu], s' as [r' lu']. intros [E H]. cbn in E, H. subst r'. unfold lu_step.
  destruct (n <=? r); [split; auto|]. eapply rsim_bind; [eapply stable_column_index_rsim; apply H|].
  intros o o' _ Ho. destruct o as [[si x]|], o' as [[si' x']|]; cbn in Ho; try contradiction; [|split; auto].
  destruct Ho as [<- [Hx N]]. eapply rsim_bind; [eapply lu_permute_rsim; exact H|]. intros l1 l1' _ H1.
  eapply rsim_bind; [eapply lu_scale_row_rsim; eassumption|]. intros l2 l2' _ H2.
  eapply rsim_bind; [eapply lu_replace_rsim; exact H2|]. intros l3 l3' _ H3. split; auto.
Qed.
Definition mrel3 (x : mat F * mat F * mat F) (x' : mat F' * mat F' * mat F') : Prop :=
  mrel (fst (fst x)) (fst (fst x')) /\ mrel (snd (fst x)) (snd (fst x')) /\ mrel (snd x) (snd x').
Lemma mat_lu_rsim a a' : mrel a a' -> rsim mrel3 (mat_lu T a) (mat_lu T' a').
Proof.
  intros H. unfold mat_lu. rewrite (mr_r _ _ H), (mr_c _ _ H). eapply (rsim_bind (rrel lurel)).
  - eapply fold_rsim; [intros; eapply lu_step_rsim; assumption|]. split; [reflexivity|]. constructor; cbn; auto. apply (mat_identity_rel X).
  - intros s s' _ [_ [H1 H2 H3]]. cbn zeta. rewrite H1. eapply rsim_bind; [apply (mat_permutation_from_vec_rsim X)|].
    intros p p' _ Hp. repeat split; cbn; try apply Hp; try apply H2; apply H3.
Qed.

Record frel (s : form) (s' : form) : Prop := { fr_p : mrel (fp s) (fp s'); fr_b : mrel (fb s) (fb s') }.
Lemma form_permute_rsim s s' i j : frel s s' -> rsim frel (form_permute_rows s i j) (form_permute_rows s' i j).
Proof. intros [H1 H2]. unfold form_permute_rows. st; [sts|]. st; [sts|]. constructor; auto. Qed.
Lemma form_scale_rsim s s' r x x' : frel s s' -> R x x' -> rsim frel (form_scale_row s r x) (form_scale_row s' r x').
Proof. intros [H1 H2] Hx. unfold form_scale_row. st; [sts|]. st; [sts|]. constructor; auto. Qed.
Lemma form_replace_rsim s s' r c rows : frel s s' -> rsim frel (form_replace s r c rows) (form_replace s' r c rows).
Proof. intros H. eapply fold_rsim; [|exact H]. intros t t' x [H1 H2]. sts. constructor; auto. Qed.
Lemma form_replace_under_rsim s s' r c : frel s s' -> rsim frel (form_replace_under s r c) (form_replace_under s' r c).
Proof. intros H. unfold form_replace_under. rewrite (mr_r _ _ (fr_b _ _ H)). apply form_replace_rsim. exact H. Qed.
Lemma form_rank_rsim s s' : frel s s' -> rsim eq (form_rank T s) (form_rank T' s').
Proof.
  intros [_ H]. unfold form_rank. eapply rsim_bind; [eapply zero_rows_rsim; exact H|]. intros z z' _ <-. rewrite (mr_r _ _ H).
  destruct (_ <=? _); [reflexivity|apply rsim_Panic].
Qed.
Lemma form_nullity_rsim s s' : frel s s' -> rsim eq (form_nullity T s) (form_nullity T' s').
Proof.
  intros H. unfold form_nullity. eapply rsim_bind; [eapply form_rank_rsim; exact H|]. intros z z' _ <-. destruct H as [_ H]. rewrite (mr_c _ _ H).
  destruct (_ <=? _); [reflexivity|apply rsim_Panic].
Qed.
Lemma ech_step_rsim n s s' c : rrel frel s s' -> rsim (rrel frel) (ech_step T n s c) (ech_step T' n s' c).
Proof.
  destruct s as [r f], s' as [r' f']. intros [E H]. cbn in E, H. subst r'. unfold ech_step.
  destruct (n <=? r); [split; auto|]. eapply rsim_bind; [eapply stable_column_index_rsim; apply H|].
  intros o o' _ Ho. destruct o as [[si x]|], o' as [[si' x']|]; cbn in Ho; try contradiction; [|split; auto].
  destruct Ho as [<- [Hx N]]. eapply rsim_bind; [eapply form_permute_rsim; exact H|]. intros g1 g1' _ H1.
  eapply rsim_bind; [apply (s_div _ _ _ X); [apply X|exact Hx|exact N]|]. intros i i' _ Hi.
  eapply rsim_bind; [eapply form_scale_rsim; eassumption|]. intros g2 g2' _ H2.
  eapply rsim_bind; [eapply form_replace_under_rsim; exact H2|]. intros g3 g3' _ H3. split; auto.
Qed.
Lemma row_echelon_rsim a a' : mrel a a' -> rsim frel (mat_row_echelon T a) (mat_row_echelon T' a').
Proof.
  intros H. unfold mat_row_echelon. rewrite (mr_r _ _ H), (mr_c _ _ H). eapply (rsim_bind (rrel frel)).
  - eapply fold_rsim; [intros; eapply ech_step_rsim; assumption|]. split; [reflexivity|]. constructor; cbn; auto. apply (mat_identity_rel X).
  - intros s s' _ [_ Hs]. exact Hs.
Qed.
Lemma to_rref_rsim s s' : frel s s' -> rsim frel (form_to_rref T s) (form_to_rref T' s').
Proof.
  intros H. unfold form_to_rref. rewrite (mr_r _ _ (fr_b _ _ H)). eapply fold_rsim; [|exact H].
  intros t t' x Ht. eapply rsim_bind; [eapply first_nonzero_rsim; apply Ht|]. intros o o' _ <-.
  destruct o; [eapply form_replace_rsim; exact Ht|exact Ht].
Qed.
Lemma bound_variables_rsim b b' : mrel b b' -> rsim eq (bound_variables T b) (bound_variables T' b').
Proof.
  intros H. unfold bound_variables. rewrite (mr_r _ _ H). eapply rsim_bind; [apply (map_rsim eq); intros; eapply first_nonzero_rsim; exact H|].
  intros os os' _ Ho. rewrite (Forall2_eq_inv _ _ Ho). reflexivity.
Qed.
Lemma kernel_vector_rsim b b' c : mrel b b' -> rsim mrel (kernel_vector T b c) (kernel_vector T' b' c).
Proof.
  intros H. unfold kernel_vector. rewrite (mr_r _ _ H), (mr_c _ _ H). eapply fold_rsim; [|apply (mat_e_rel X)].
  intros v v' r Hv. eapply rsim_bind; [eapply first_nonzero_rsim; exact H|]. intros o o' _ <-. destruct o as [c2|]; [|exact Hv].
  destruct (c2 <? c); [|exact Hv]. sts.
Qed.
Lemma compute_kernel_rsim s s' : frel s s' -> rsim (Forall2 mrel) (compute_kernel T s) (compute_kernel T' s').
Proof.
  intros [_ H]. unfold compute_kernel. eapply rsim_bind; [eapply bound_variables_rsim; exact H|]. intros bd bd' _ <-. rewrite (mr_c _ _ H).
  apply map_rsim. intros. apply kernel_vector_rsim. exact H.
Qed.
Lemma compute_range_rsim a a' order : mrel a a' -> rsim (Forall2 mrel) (compute_range a order) (compute_range a' order).
Proof. intros H. apply map_rsim. intros. apply mat_get_col_rsim. exact H. Qed.

(** cones *)
Record facerel (f f' : face) : Prop := { fa_n : mrel (fnormal f) (fnormal f'); fa_g : Forall2 mrel (fgens f) (fgens f') }.
Record conerel (k k' : cone) : Prop := {
  co_g : Forall2 mrel (cgens k) (cgens k'); co_f : Forall2 facerel (cfacets k) (cfacets k');
  co_o : Forall2 mrel (corth k) (corth k'); co_a : cambient k = cambient k'; co_d : cdim k = cdim k' }.
Lemma combinations_rel {A A' : Type} (Q : A -> A' -> Prop) l l' : Forall2 Q l l' -> forall k,
  Forall2 (Forall2 Q) (combinations k l) (combinations k l').
Proof.
  induction 1 as [|x x' l l' Hx _ IH]; intros [|k]; cbn; try (repeat constructor; fail).
  apply Forall2_app; [|apply IH]. eapply Forall2_map_l; [|apply IH]. intros a a' Ha. constructor; assumption.
Qed.
Lemma rows_rref_rsim vs vs' : Forall2 mrel vs vs' -> rsim frel (rows_rref T vs) (rows_rref T' vs').
Proof.
  intros H. unfold rows_rref. eapply rsim_bind; [eapply mat_from_row_vectors_rsim; exact H|]. intros a a' _ Ha.
  eapply rsim_bind; [eapply row_echelon_rsim; exact Ha|]. intros e e' _ He. apply to_rref_rsim. exact He.
Qed.
Lemma all_above_rsim gs gs' n n' : Forall2 mrel gs gs' -> mrel n n' -> rsim eq (all_above T gs n) (all_above T' gs' n').
Proof.
  intros H Hn. induction H as [|g g' gs gs' Hg _ IH]; cbn; [reflexivity|].
  eapply rsim_bind; [apply (mat_dot_rsim X); eassumption|]. intros d d' _ Hd.
  eapply rsim_bind; [apply (t_pcmp _ _ _ Y); [exact Hd|apply X]|]. intros o o' _ <-.
  destruct o as [[]|]; try reflexivity; exact IH.
Qed.
Lemma facet_of_rsim gs gs' k sub sub' : Forall2 mrel gs gs' -> Forall2 mrel sub sub' ->
  rsim (orel facerel) (facet_of T gs k sub) (facet_of T' gs' k sub').
Proof.
  intros H G. unfold facet_of. eapply rsim_bind; [eapply rows_rref_rsim; exact G|]. intros s s' _ Hs.
  eapply rsim_bind; [eapply form_rank_rsim; exact Hs|]. intros r r' _ <-. destruct (negb (r =? k)); [exact I|].
  eapply rsim_bind; [eapply compute_kernel_rsim; exact Hs|]. intros ker ker' _ Hk.
  eapply rsim_bind; [eapply vget_rsim; exact Hk|]. intros n n' _ Hn.
  eapply rsim_bind; [eapply vget_rsim; exact H|]. intros g g' _ Hg.
  eapply rsim_bind; [apply (mat_dot_rsim X); eassumption|]. intros d d' _ Hd.
  eapply rsim_bind; [apply (t_pcmp _ _ _ Y); [exact Hd|apply X]|]. intros o o' _ <-. destruct o as [c|]; [|exact I].
  eapply (rsim_bind mrel).
  - destruct c; try exact Hn. eapply rsim_bind; [apply (s_sub _ _ _ X); apply X|]. intros m1 m1' _ Hm. apply (mat_scale_rsim X); assumption.
  - intros w w' _ Hw. eapply rsim_bind; [eapply all_above_rsim; eassumption|]. intros b b' _ <-. destruct b; [|exact I]. constructor; assumption.
Qed.
Lemma cone_new_rsim gs gs' : Forall2 mrel gs gs' -> rsim conerel (cone_new T gs) (cone_new T' gs').
Proof.
  intros H. unfold cone_new. eapply rsim_bind; [eapply vget_rsim; exact H|]. intros g g' _ Hg.
  eapply rsim_bind; [eapply rows_rref_rsim; exact H|]. intros s s' _ Hs.
  eapply rsim_bind; [eapply form_rank_rsim; exact Hs|]. intros d d' _ <-.
  eapply rsim_bind; [eapply compute_kernel_rsim; exact Hs|]. intros o o' _ Ho.
  eapply rsim_bind; [apply rsim_refl|]. intros k k' _ <-.
  eapply rsim_bind; [apply (mapM_rsim (Forall2 mrel)); [|apply combinations_rel; exact H]|].
  - intros a a' Ha. eapply facet_of_rsim; assumption.
  - intros os os' _ Hos. constructor; cbn; try assumption; try reflexivity; [|apply Hg].
    clear -Hos. induction Hos as [|x x' os os' Hx _ IH]; cbn; [constructor|]. apply Forall2_app; [|exact IH].
    destruct x, x'; cbn in Hx; try contradiction; auto.
Qed.
End Alg.
