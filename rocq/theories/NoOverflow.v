(** * Elimination over a field type that never overflows does not overflow. *)
From Verif Require Import Base BaseLemmas FieldIface UtilModel MatModel AlgModel Ideal.

Definition nov {A : Type} (x : res A) : Prop := x <> Panic Overflow.

Lemma nov_bind {A B : Type} (x : res A) (f : A -> res B) : nov x -> (forall a, nov (f a)) -> nov (bind x f).
Proof. unfold nov. destruct x as [a|k|]; simpl; intros H G; [apply G| |discriminate]. intros E. apply H. congruence. Qed.
Lemma nov_Ok {A : Type} (a : A) : nov (Ok a).
Proof. discriminate. Qed.
Lemma nov_vget {A : Type} (l : list A) i : nov (vget l i).
Proof. unfold nov, vget. destruct (nth_error l i); discriminate. Qed.
Lemma nov_vset {A : Type} (l : list A) i x : nov (vset l i x).
Proof. unfold nov, vset. destruct (i <? length l); discriminate. Qed.
Lemma nov_unwrap {A : Type} (o : option A) : nov (unwrap o).
Proof. unfold nov. destruct o; discriminate. Qed.
Lemma nov_mapM {A B : Type} (f : A -> res B) l : (forall x, nov (f x)) -> nov (mapM f l).
Proof. intros H. induction l; simpl; [apply nov_Ok|]. apply nov_bind; [apply H|]. intros. apply nov_bind; [apply IHl|]. intros. apply nov_Ok. Qed.
Lemma nov_foldM {A B : Type} (f : B -> A -> res B) l : (forall s x, nov (f s x)) -> forall s, nov (foldM f l s).
Proof. intros H. induction l; intros s; simpl; [apply nov_Ok|]. apply nov_bind; [apply H|]. intros. apply IHl. Qed.
Lemma nov_max_by {A : Type} (f : A -> A -> res comparison) l : (forall x y, nov (f x y)) -> nov (max_by f l).
Proof.
  intros H. unfold max_by. destruct l as [|x l]; [apply nov_Ok|].
  repeat first [apply nov_foldM; intros | apply nov_bind; intros | apply H | apply nov_Ok
   | match goal with |- nov (match ?c with _ => _ end) => destruct c end ].
Qed.
Lemma safe_nov {A : Type} (x : res A) (Q : A -> Prop) : safe x Q -> nov x -> exists a, x = Ok a /\ Q a.
Proof. unfold nov. destruct x as [a|[]|]; simpl; intros S N; try contradiction; eauto. Qed.

(** the field operations that elimination uses never overflow *)
Record NoOvf {F : FieldImpl} (T : StabImpl F) : Prop := {
  no_add : forall x y : F, nov (fadd x y);
  no_sub : forall x y : F, nov (fsub x y);
  no_mul : forall x y : F, nov (fmul x y);
  no_div : forall x y : F, nov (fdiv x y);
  no_stab : forall x y : F, nov (fstab T x y)
}.
Lemma ideal_nov K : NoOvf (ideal_stab K).
Proof.
  constructor; intros; try discriminate. unfold nov. simpl. destruct (keqb K y k0); discriminate.
Qed.

Section NoOverflow.
Context {F : FieldImpl} (T : StabImpl F) (N : NoOvf T).

Ltac nov := repeat match goal with
  | |- nov (bind _ _) => apply nov_bind; [|intros]
  | |- nov (Ok _) => apply nov_Ok
  | |- nov (vget _ _) => apply nov_vget
  | |- nov (vset _ _ _) => apply nov_vset
  | |- nov (unwrap _) => apply nov_unwrap
  | |- nov (fadd _ _) => apply (no_add T N)
  | |- nov (fsub _ _) => apply (no_sub T N)
  | |- nov (fmul _ _) => apply (no_mul T N)
  | |- nov (fdiv _ _) => apply (no_div T N)
  | |- nov (fstab _ _ _) => apply (no_stab T N)
  | |- nov (mapM _ _) => apply nov_mapM; intros
  | |- nov (foldM _ _ _) => apply nov_foldM; intros
  | |- nov (max_by _ _) => apply nov_max_by; intros
  | |- nov (if ?c then _ else _) => destruct c
  | |- nov (match ?c with _ => _ end) => destruct c
  | |- nov (Panic _) => discriminate
  end.

Lemma nov_mget (a : mat F) r c : nov (mget a r c). Proof. apply nov_vget. Qed.
Lemma nov_mset (a : mat F) r c x : nov (mset a r c x). Proof. unfold mset. nov. Qed.
Lemma nov_permute_rows (a : mat F) s t : nov (mat_permute_rows a s t).
Proof. unfold mat_permute_rows, mget, mset. nov. Qed.
Lemma nov_scale_row (a : mat F) i x : nov (mat_scale_row a i x).
Proof. unfold mat_scale_row, mget, mset. nov. Qed.
Lemma nov_replace_row (a : mat F) s t x : nov (mat_replace_row a s t x).
Proof. unfold mat_replace_row, mget, mset. nov. Qed.
Lemma nov_stable (a : mat F) c r : nov (stable_column_index T a c r).
Proof. unfold stable_column_index, mat_col_list, get_max_index, mget. nov. Qed.
Lemma nov_first_nonzero (a : mat F) r : nov (first_nonzero T a r).
Proof. unfold first_nonzero, mat_get_row, mat_row_slice. nov. Qed.
Lemma nov_form_replace (s : form) r c rows : nov (form_replace (F:=F) s r c rows).
Proof. unfold form_replace. nov; try apply nov_mget; apply nov_replace_row. Qed.
Lemma nov_permutation (p : list nat) : nov (mat_permutation_from_vec (F:=F) p).
Proof. unfold mat_permutation_from_vec, from_fnM. nov. Qed.

Lemma nov_row_echelon (a : mat F) : nov (mat_row_echelon T a).
Proof.
  unfold mat_row_echelon. nov. destruct s as [r f]. unfold ech_step, form_permute_rows, form_scale_row, form_replace_under.
  nov; first [apply nov_stable|apply nov_permute_rows|apply nov_scale_row|apply nov_form_replace].
Qed.
Lemma nov_to_rref (s : form) : nov (form_to_rref T s).
Proof. unfold form_to_rref, form_replace_above. nov; first [apply nov_first_nonzero|apply nov_form_replace]. Qed.
Lemma nov_lu (a : mat F) : nov (mat_lu T a).
Proof.
  unfold mat_lu. nov; [|apply nov_permutation]. destruct s as [r f].
  unfold lu_step, lu_permute, lu_scale_row, lu_replace_col_under_row, list_swap, permute_under_diagonal, mat_swap.
  nov; first [apply nov_stable|apply nov_permute_rows|apply nov_mset|apply nov_mget|apply nov_scale_row|apply nov_replace_row].
Qed.
Lemma nov_kernel (s : form) : nov (compute_kernel T s).
Proof.
  unfold compute_kernel, bound_variables, kernel_vector.
  nov; first [apply nov_first_nonzero|apply nov_mset|apply nov_mget].
Qed.
Lemma nov_mat_mul (a b : mat F) : nov (mat_mul a b).
Proof. unfold mat_mul, from_fnM, mat_row_slice, mget. nov. Qed.
Lemma nov_mat_add (a b : mat F) : nov (mat_add a b).
Proof. unfold mat_add. nov. Qed.
End NoOverflow.
