(** * C89: the Display of matrices.

    Strings are lists of Unicode code points; 10 is the newline, 44 the comma, 91 and 93 are brackets. *)
From Verif Require Import Base BaseLemmas IntModel RatModel FieldIface MatModel MatProofs DisplayModel DisplayProofs MatDisplay.
Local Open Scope Z_scope.

(** the lines [ls], one per line *)
Fixpoint unlines (ls : list chars) : chars :=
  match ls with [] => [] | [l] => l | l :: ls' => l ++ 10 :: unlines ls' end.
(** the elements separated by ", " in brackets *)
Fixpoint commas (ls : list chars) : chars :=
  match ls with [] => [] | [l] => l | l :: ls' => l ++ 44 :: 32 :: commas ls' end.

Lemma lines_unlines {F : FieldImpl} (show : F -> chars) (a : mat F) n k :
  lines show a k n = unlines (map (row_line show a) (seq k n)).
Proof.
  revert k. induction n as [|n IH]; intros k; [reflexivity|]. destruct n as [|n]; [reflexivity|].
  rewrite lines_step by discriminate. rewrite IH. reflexivity.
Qed.
Lemma join_commas l : join l = commas l.
Proof. induction l as [|x l IH]; [reflexivity|]. destruct l; [reflexivity|]. cbn [join commas] in *. rewrite IH. reflexivity. Qed.

(** what is printed: an empty line, then a bracketed list for each row *)
Theorem C89_text : forall (F : FieldImpl) (show : F -> chars) (a : mat F), length (ments a) = (mrows a * mcols a)%nat ->
  mat_display show a = Ok (10 :: unlines (map (fun r => 91 :: commas (map (fun c => show (mentry a r c)) (seq 0 (mcols a))) ++ [93]) (seq 0 (mrows a)))).
Proof.
  intros F show a L. rewrite mat_display_ok by lia. rewrite lines_unlines. do 3 f_equal. apply map_ext_in. intros r Hr.
  apply in_seq in Hr. unfold row_line, debug_list. rewrite join_commas. do 3 f_equal.
  pose proof (row_slice_ok a r L ltac:(lia)) as E. rewrite mat_row_slice_ok in E by lia. injection E as E.
  rewrite E, map_map. reflexivity.
Qed.
(** Mat::new does not check the number of entries; Display panics iff there are too few *)
Theorem C89_defined : forall (F : FieldImpl) (show : F -> chars) (a : mat F),
  ((exists s, mat_display show a = Ok s) <-> (mrows a * mcols a <= length (ments a))%nat) /\
  (mat_display show a = Panic IndexOOB <-> (length (ments a) < mrows a * mcols a)%nat).
Proof.
  intros F show a. destruct (Nat.leb_spec (mrows a * mcols a) (length (ments a))) as [L|L].
  - rewrite mat_display_ok by exact L. split; (split; [|intros]); intros; try lia; try discriminate. eexists; reflexivity.
  - rewrite mat_display_panic by exact L. split; (split; [|intros]); intros; try lia; try reflexivity. destruct H as [s H]; discriminate.
Qed.
(** one line per row *)
Theorem C89_lines : forall (F : FieldImpl) (show : F -> chars) (a : mat F) s, (forall x, ~ In 10 (show x)) ->
  mat_display show a = Ok s -> count_occ Z.eq_dec s 10 = Nat.max 1 (mrows a).
Proof.
  intros F show a s H E. destruct (Nat.leb_spec (mrows a * mcols a) (length (ments a))) as [L|L].
  - rewrite mat_display_ok in E by exact L. injection E as <-. rewrite count_occ_cons_eq by reflexivity.
    rewrite lines_count by exact H. lia.
  - rewrite mat_display_panic in E by exact L. discriminate.
Qed.
(** matrices of rationals with the same display have the same shape and identical entries *)
Theorem C89_injective : forall m (a b : mat (rat_impl m)) s,
  length (ments a) = (mrows a * mcols a)%nat -> length (ments b) = (mrows b * mcols b)%nat -> (0 < mrows a)%nat ->
  mat_display (rat_debug : rat_impl m -> chars) a = Ok s -> mat_display (rat_debug : rat_impl m -> chars) b = Ok s -> a = b.
Proof.
  intros m a b s. apply (mat_display_inj (F := rat_impl m) rat_debug (fun _ => True)); try apply rat_debug_readable;
  apply Forall_forall; intros; exact I.
Qed.
(** for other entry types (f32, f64): if the texts of entries contain neither comma nor bracket and differ *)
Theorem C89_injective_plain : forall (F : FieldImpl) (show : F -> chars) (ok : F -> Prop) (a b : mat F) s,
  (forall x, ok x -> show x <> [] /\ ~ In 44 (show x) /\ ~ In 93 (show x)) ->
  (forall x y, ok x -> ok y -> show x = show y -> x = y) ->
  Forall ok (ments a) -> Forall ok (ments b) ->
  length (ments a) = (mrows a * mcols a)%nat -> length (ments b) = (mrows b * mcols b)%nat -> (0 < mrows a)%nat ->
  mat_display show a = Ok s -> mat_display show b = Ok s -> a = b.
Proof.
  intros F show ok a b s H1 H2. apply mat_display_inj. split.
  - intros x y u v Hx Hy Du Dv E. apply (span_eq (fun c => negb (c =? 44) && negb (c =? 93))) in E.
    + destruct E as [E ->]. split; [exact (H2 x y Hx Hy E)|reflexivity].
    + apply forallb_forall. intros c Hc. destruct (H1 x Hx) as (_ & A & B). destruct (Z.eqb_spec c 44), (Z.eqb_spec c 93); subst; tauto.
    + apply forallb_forall. intros c Hc. destruct (H1 y Hy) as (_ & A & B). destruct (Z.eqb_spec c 44), (Z.eqb_spec c 93); subst; tauto.
    + destruct u; [exact I|]. destruct Du; subst; reflexivity.
    + destruct v; [exact I|]. destruct Dv; subst; reflexivity.
  - intros x Hx. destruct (H1 x Hx) as (A & B & C). destruct (show x) as [|c t]; [congruence|]. exists c, t. split; [reflexivity|].
    intros ->. apply C. left. reflexivity.
Qed.
(** without rows the number of columns is not visible *)
Theorem C89_empty_refuted : ~ (forall a b : mat (rat_impl Debug),
  length (ments a) = (mrows a * mcols a)%nat -> length (ments b) = (mrows b * mcols b)%nat ->
  mat_display (rat_debug : rat_impl Debug -> chars) a = mat_display (rat_debug : rat_impl Debug -> chars) b -> a = b).
Proof.
  intros H. specialize (H (mkmat (F := rat_impl Debug) [] 0 2) (mkmat (F := rat_impl Debug) [] 0 3) eq_refl eq_refl eq_refl).
  apply (f_equal mcols) in H. discriminate.
Qed.

(** a 2 x 1 matrix with the entries -1/2 and 3: two lines after the empty one, the entries in Debug form *)
Definition ex_mat : mat (rat_impl Debug) := mkmat (F := rat_impl Debug) [mkrat (-1) 2; mkrat 3 1] 2 1.
Example C89_example : length (ments ex_mat) = (mrows ex_mat * mcols ex_mat)%nat /\
  mat_display (rat_debug : rat_impl Debug -> chars) ex_mat = Ok (10 :: 91 :: rat_debug (mkrat (-1) 2) ++ [93; 10; 91] ++ rat_debug (mkrat 3 1) ++ [93]) /\
  rat_debug (mkrat (-1) 2) = [82; 97; 116; 105; 111; 110; 97; 108; 32; 123; 32; 110; 117; 109; 101; 114; 58; 32;
    73; 110; 116; 101; 103; 101; 114; 40; 45; 49; 41; 44; 32; 100; 101; 110; 111; 109; 58; 32; 73; 110; 116; 101; 103; 101; 114; 40; 50; 41; 32; 125] /\
  (forall r, ~ In 10 (rat_debug r)).
Proof. repeat (split; [reflexivity|]). exact rat_debug_nonl. Qed.
(** a matrix built by Mat::new with too few entries *)
Example C89_example_panic : mat_display (rat_debug : rat_impl Debug -> chars) (mkmat (F := rat_impl Debug) [mkrat 1 1] 1 2) = Panic IndexOOB.
Proof. reflexivity. Qed.
(** the hypotheses of [C89_injective_plain] hold for the Display of integers *)
Example C89_example_plain : (forall z, int_display z <> [] /\ ~ In 44 (int_display z) /\ ~ In 93 (int_display z)) /\
  (forall x y, int_display x = int_display y -> x = y).
Proof.
  split; [|exact int_display_inj]. intros z. split; [|split; apply int_display_no; reflexivity].
  destruct (int_display_digit z) as (c & H & _). intros E. rewrite E in H. destruct H.
Qed.

Print Assumptions C89_text.
Print Assumptions C89_defined.
Print Assumptions C89_lines.
Print Assumptions C89_injective.
Print Assumptions C89_injective_plain.
Print Assumptions C89_empty_refuted.
