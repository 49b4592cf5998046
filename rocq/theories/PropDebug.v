(** * Property C114: Debug output.

    [fmt false t] is the text for "{:?}", [fmt true t] the one for "{:#?}"; [int_tree], .., [mat_tree] are the
    derived impls. *)
From Coq Require Import String Ascii.
From Verif Require Import Base BaseLemmas IntModel RatModel FieldIface IntProofs RatProofs MDegModel MonoSpec MDegProofs PolyModel MatModel MatProofs DisplayModel DisplayProofs
  MatDisplay PropMatDisplay DebugModel DebugProofs.
Local Open Scope Z_scope.

(** ** Which values have the same text *)
Lemma digits_word s : s <> [] -> forallb is_num s = true -> word s.
Proof.
  intros N D. split; [exact N|]. rewrite forallb_forall in *. intros c I. specialize (D c I). unfold is_num, is_digit in D. unfold is_word.
  apply orb_true_iff in D as [D|D]; rewrite D; rewrite ?orb_true_r; reflexivity.
Qed.
Lemma nat_tree_wf n : dwf (nat_tree n).
Proof. apply digits_word; [apply dec_ok; lia|]. apply (forallb_impl is_digit); [apply digit_num|apply dec_ok; lia]. Qed.
Lemma nat_tree_inj a b : nat_tree a = nat_tree b -> a = b.
Proof. intros E. injection E as E. apply dec_inj in E; lia. Qed.
Lemma int_tree_wf z : dwf (int_tree z).
Proof.
  split; [split; [split; [discriminate|reflexivity]|discriminate]|]. split; [|exact I]. split; [reflexivity|]. apply digits_word; [|apply int_display_num].
  intros E. destruct (int_display_digit z) as (c & Ic & _). rewrite E in Ic. exact Ic.
Qed.
Lemma int_tree_inj a b : int_tree a = int_tree b -> a = b.
Proof. intros E. injection E as E. apply int_display_inj. exact E. Qed.
Definition field (i : nat) (t : dtree) : dtree := match t with DNode _ _ l => snd (nth i l ([], t)) | _ => t end.
Lemma rat_tree_wf r : dwf (rat_tree r).
Proof.
  cbn [rat_tree dwf]. split; [split; [split; [discriminate|reflexivity]|discriminate]|]. cbn [fold_right fst snd].
  split; [split; [split; [reflexivity|discriminate]|apply int_tree_wf]|]. split; [split; [split; [reflexivity|discriminate]|apply int_tree_wf]|exact I].
Qed.
Lemma rat_tree_inj a b : rat_tree a = rat_tree b -> a = b.
Proof. intros E. destruct a, b. injection E as E1 E2. apply int_display_inj in E1, E2. congruence. Qed.
Lemma dlist_wf {A} (f : A -> dtree) l : Forall (fun x => dwf (f x)) l -> dwf (dlist f l).
Proof.
  intros H. split; [reflexivity|]. apply dwf_items. apply Forall_map. eapply Forall_impl; [|exact H]. intros x Hx. split; [reflexivity|exact Hx].
Qed.
Lemma dlist_inj {A} (f : A -> dtree) (ok : A -> Prop) : (forall x y, ok x -> ok y -> f x = f y -> x = y) ->
  forall l l', Forall ok l -> Forall ok l' -> dlist f l = dlist f l' -> l = l'.
Proof.
  intros H l l' W W' E. unfold dlist in E. injection E as E. revert l' W' E. induction W as [|x l Hx W IH]; intros [|y l'] W' E; try discriminate; [reflexivity|].
  cbn [map] in E. injection E as E1 E2. inversion W'; subst. rewrite (H x y) by assumption. rewrite (IH l') by assumption. reflexivity.
Qed.
Lemma mdeg_tree_wf v : dwf (mdeg_tree v).
Proof.
  cbn [mdeg_tree dwf]. split; [split; [split; [discriminate|reflexivity]|discriminate]|]. cbn [fold_right fst snd]. split; [|exact I]. split; [reflexivity|].
  apply dlist_wf. apply Forall_forall. intros x _. apply nat_tree_wf.
Qed.
Lemma mdeg_tree_inj v w : mdeg_tree v = mdeg_tree w -> v = w.
Proof.
  intros E. pose proof (f_equal (field 0) E : dlist nat_tree v = dlist nat_tree w) as E'.
  apply (dlist_inj nat_tree (fun _ => True)) in E'; [exact E'|intros x y _ _; apply nat_tree_inj|apply Forall_forall; auto|apply Forall_forall; auto].
Qed.

Section Trees.
Context {F : FieldImpl} (ft : F -> dtree) (ok : F -> Prop).
(** the texts of the coefficients are those of numbers or of derived impls and distinguish them *)
Definition debug_ok : Prop := (forall x, ok x -> dwf (ft x)) /\ (forall x y, ok x -> ok y -> ft x = ft y -> x = y).
Context (D : debug_ok).
Notation okt := (fun t : term F => ok (coef t)).
Lemma term_tree_wf (t : term F) : okt t -> dwf (term_tree ft t).
Proof.
  intros H. cbn [term_tree dwf]. split; [split; [split; [discriminate|reflexivity]|discriminate]|]. cbn [fold_right fst snd].
  split; [split; [split; [reflexivity|discriminate]|apply D; exact H]|]. split; [split; [split; [reflexivity|discriminate]|apply mdeg_tree_wf]|exact I].
Qed.
Lemma term_tree_inj (s t : term F) : okt s -> okt t -> term_tree ft s = term_tree ft t -> s = t.
Proof.
  intros Hs Ht E. destruct s as [c v], t as [c' v']. cbn [coef] in *. pose proof (f_equal (field 0) E : ft c = ft c') as E1.
  pose proof (f_equal (field 1) E : mdeg_tree v = mdeg_tree v') as E2.
  apply D in E1; auto. apply mdeg_tree_inj in E2. congruence.
Qed.
Theorem C114_term : forall alternate (s t : term F), okt s -> okt t -> (fmt alternate (term_tree ft s) = fmt alternate (term_tree ft t) <-> s = t).
Proof.
  intros alternate s t Hs Ht. split; [|congruence]. intros E. apply term_tree_inj; auto. apply (fmt_inj alternate); auto using term_tree_wf.
Qed.
Theorem C114_poly : forall alternate (p q : poly F), Forall okt p -> Forall okt q -> (fmt alternate (poly_tree ft p) = fmt alternate (poly_tree ft q) <-> p = q).
Proof.
  intros alternate p q Hp Hq. split; [|congruence]. intros E.
  assert (W : forall r : poly F, Forall okt r -> dwf (poly_tree ft r)).
  { intros r Hr. cbn [poly_tree dwf]. split; [split; [split; [discriminate|reflexivity]|discriminate]|]. cbn [fold_right fst snd].
    split; [|exact I]. split; [split; [reflexivity|discriminate]|]. apply dlist_wf. eapply Forall_impl; [|exact Hr]. intros t. apply term_tree_wf. }
  apply fmt_inj in E; auto. pose proof (f_equal (field 0) E : dlist (term_tree ft) p = dlist (term_tree ft) q) as E'.
  apply (dlist_inj (term_tree ft) okt) in E'; auto. apply term_tree_inj.
Qed.
Theorem C114_mat : forall alternate (a b : mat F), Forall ok (ments a) -> Forall ok (ments b) ->
  (fmt alternate (mat_tree ft a) = fmt alternate (mat_tree ft b) <-> a = b).
Proof.
  intros alternate a b Ha Hb. split; [|congruence]. intros E.
  assert (W : forall c : mat F, Forall ok (ments c) -> dwf (mat_tree ft c)).
  { intros c Hc. cbn [mat_tree dwf]. split; [split; [split; [discriminate|reflexivity]|discriminate]|]. cbn [fold_right fst snd].
    split; [split; [split; [reflexivity|discriminate]|apply dlist_wf; eapply Forall_impl; [|exact Hc]; apply D]|].
    split; [split; [split; [reflexivity|discriminate]|apply nat_tree_wf]|]. split; [split; [split; [reflexivity|discriminate]|apply nat_tree_wf]|exact I]. }
  apply fmt_inj in E; auto. destruct a as [x n m], b as [x' n' m']. cbn [ments] in *.
  pose proof (f_equal (field 0) E : dlist ft x = dlist ft x') as E1. pose proof (f_equal (field 1) E : nat_tree n = nat_tree n') as E2. pose proof (f_equal (field 2) E : nat_tree m = nat_tree m') as E3.
  apply nat_tree_inj in E2, E3. apply (dlist_inj ft ok) in E1; auto; [congruence|apply D].
Qed.
(** the message of the panic of Term::eval names the arguments *)
Theorem C114_eval_message : forall x (t : term F) x' t', Forall ok x -> Forall ok x' -> okt t -> okt t' ->
  (eval_message ft x t = eval_message ft x' t' <-> x = x' /\ t = t').
Proof.
  intros x t x' t' Hx Hx' Ht Ht'. split; [|intros [-> ->]; reflexivity]. unfold eval_message. intros E. apply app_inv_head in E.
  assert (I : forall y, Forall ok y -> Forall (fun x : chars * dtree => label_ok KList (fst x) /\ dwf (snd x)) (map (fun z => ([], ft z)) y)).
  { intros y Hy. apply Forall_map. eapply Forall_impl; [|exact Hy]. intros z Hz. split; [reflexivity|]. apply D. exact Hz. }
  apply list_reads in E; auto. destruct E as [E1 E2]. apply app_inv_head in E2. apply C114_term in E2; auto. split; [|exact E2].
  apply (dlist_inj ft ok); auto; [apply D|]. unfold dlist. rewrite E1. reflexivity.
Qed.

(** ** Display of matrices with "{}" and "{:#}" *)
Theorem C114_mat_display_plain : forall a : mat F, mat_fmt ft false a = mat_display (fun x => fmt false (ft x)) a.
Proof.
  intros a. unfold mat_fmt, mat_display.
  assert (H : forall r : list F, fmt false (dlist ft r) = debug_list (fun x => fmt false (ft x)) r) by (intros r; unfold dlist, debug_list; cbn [fmt dopen dclose dbody]; rewrite map_map; reflexivity).
  generalize [10] at 2 4. generalize (seq 0 (mrows a)). induction l as [|r l IH]; intros acc; cbn [foldM]; [reflexivity|].
  destruct (mat_row_slice a r); cbn [bind]; [rewrite H; apply IH|reflexivity|reflexivity].
Qed.
Definition row (a : mat F) (r : nat) : list F := map (fun c => mentry a r c) (seq 0 (mcols a)).
(** the rows one after the other, each a list in the chosen format *)
Theorem C114_mat_display_text : forall alternate (a : mat F), length (ments a) = (mrows a * mcols a)%nat ->
  mat_fmt ft alternate a = Ok (10 :: unlines (map (fun r => fmt alternate (dlist ft (row a r))) (seq 0 (mrows a)))).
Proof.
  intros alternate a L. unfold mat_fmt.
  assert (G : forall n k acc, (k + n = mrows a)%nat -> foldM (fun (acc : chars) (r : nat) =>
      row <- mat_row_slice a r ;;
      let acc := acc ++ fmt alternate (dlist ft row) in
      Ok (if negb (Nat.eqb r (mrows a - 1)) then acc ++ [10] else acc)) (seq k n) acc =
    Ok (acc ++ unlines (map (fun r => fmt alternate (dlist ft (row a r))) (seq k n)))).
  { induction n as [|n IH]; intros k acc E; cbn [seq foldM map]; [rewrite app_nil_r; reflexivity|].
    rewrite (row_slice_ok a k L) by lia. cbn [bind]. fold (row a k). rewrite IH by lia. f_equal.
    destruct n as [|n]; cbn [seq map unlines].
    - assert (Nat.eqb k (mrows a - 1) = true) as -> by (apply Nat.eqb_eq; lia). cbn [negb]. rewrite app_nil_r. reflexivity.
    - assert (Nat.eqb k (mrows a - 1) = false) as -> by (apply Nat.eqb_neq; lia). cbn [negb]. rewrite <- !app_assoc. reflexivity. }
  rewrite G by lia. reflexivity.
Qed.
Lemma unlines_read alt (l l' : list (list F)) : Forall (Forall ok) l -> Forall (Forall ok) l' ->
  unlines (map (fun r => fmt alt (dlist ft r)) l) = unlines (map (fun r => fmt alt (dlist ft r)) l') -> l = l'.
Proof.
  intros W. revert l'. induction W as [|x l Hx W IH]; intros l' W' E.
  - destruct l' as [|y [|z l']]; [reflexivity|discriminate|discriminate].
  - destruct l' as [|y l']; [destruct l; discriminate|]. inversion W' as [|? ? Hy Wl]; subst.
    assert (X : forall z m, exists t, unlines (map (fun r => fmt alt (dlist ft r)) (z :: m)) = fmt alt (dlist ft z) ++ t /\
       (m = [] /\ t = [] \/ m <> [] /\ t = 10 :: unlines (map (fun r => fmt alt (dlist ft r)) m))).
    { intros z m. destruct m as [|m0 m]; [exists []; rewrite app_nil_r; auto|]. eexists. split; [reflexivity|]. right. split; [discriminate|reflexivity]. }
    destruct (X x l) as (t & Et & Ct), (X y l') as (t' & Et' & Ct'). rewrite Et, Et' in E.
    assert (I : forall y, Forall ok y -> Forall (fun x : chars * dtree => label_ok KList (fst x) /\ dwf (snd x)) (map (fun z => ([], ft z)) y)).
    { intros z Hz. apply Forall_map. eapply Forall_impl; [|exact Hz]. intros w Hw. split; [reflexivity|]. apply D. exact Hw. }
    apply list_reads in E; auto. destruct E as [E1 E2].
    assert (x = y) as <- by (apply (dlist_inj ft ok); auto; [apply D|unfold dlist; rewrite E1; reflexivity]). subst t'. f_equal.
    destruct Ct as [[-> ->]|[N ->]], Ct' as [[-> C]|[N' C]]; try discriminate; [reflexivity|]. injection C as C. apply IH; assumption.
Qed.
Theorem C114_mat_display_injective : forall alternate (a b : mat F) s, Forall ok (ments a) -> Forall ok (ments b) ->
  length (ments a) = (mrows a * mcols a)%nat -> length (ments b) = (mrows b * mcols b)%nat -> (0 < mrows a)%nat ->
  mat_fmt ft alternate a = Ok s -> mat_fmt ft alternate b = Ok s -> a = b.
Proof.
  intros alternate a b s Ha Hb La Lb P Ea Eb. rewrite C114_mat_display_text in Ea by exact La. rewrite C114_mat_display_text in Eb by exact Lb.
  rewrite <- Eb in Ea. clear Eb.
  assert (E : unlines (map (fun r => fmt alternate (dlist ft (row a r))) (seq 0 (mrows a))) = unlines (map (fun r => fmt alternate (dlist ft (row b r))) (seq 0 (mrows b)))) by congruence.
  assert (M : forall c : mat F, map (fun r => fmt alternate (dlist ft (row c r))) (seq 0 (mrows c)) = map (fun r => fmt alternate (dlist ft r)) (map (row c) (seq 0 (mrows c)))).
  { intros c. rewrite map_map. reflexivity. }
  assert (R : forall (c : mat F) r, length (ments c) = (mrows c * mcols c)%nat -> (r < mrows c)%nat -> row c r = mrow c r).
  { intros c r L H. pose proof (row_slice_ok c r L H) as X. rewrite mat_row_slice_ok in X by lia. injection X as X. symmetry. exact X. }
  assert (O : forall c : mat F, length (ments c) = (mrows c * mcols c)%nat -> Forall ok (ments c) -> Forall (Forall ok) (map (row c) (seq 0 (mrows c)))).
  { intros c L H. apply Forall_map. apply Forall_forall. intros r Hr. apply in_seq in Hr. rewrite R by (assumption || lia). apply Forall_mrow. exact H. }
  rewrite (M a), (M b) in E. apply unlines_read in E; auto.
  assert (N : mrows a = mrows b) by (apply (f_equal (@length _)) in E; rewrite !map_length, !seq_length in E; exact E).
  assert (Q : forall r, (r < mrows a)%nat -> row a r = row b r).
  { intros r Hr. apply (f_equal (fun l => nth r l [])) in E. rewrite (nth_indep _ [] (row a 0)), (nth_indep _ [] (row b 0)) in E by (rewrite map_length, seq_length; lia).
    rewrite !map_nth, !seq_nth in E by lia. exact E. }
  assert (C : mcols a = mcols b).
  { specialize (Q 0%nat P). apply (f_equal (@length F)) in Q. unfold row in Q. rewrite !map_length, !seq_length in Q. exact Q. }
  assert (X : ments a = ments b).
  { rewrite (rows_concat (ments a) (mcols a) (mrows a) La), (rows_concat (ments b) (mcols b) (mrows b) Lb). rewrite <- N. f_equal.
    apply map_ext_in. intros r Hr. apply in_seq in Hr. specialize (Q r ltac:(lia)). rewrite !R in Q by (assumption || lia). exact Q. }
  destruct a, b; cbn in *; congruence.
Qed.
End Trees.

(** the other types of the crate *)
Theorem C114_numbers : forall alternate,
  (forall a b, fmt alternate (int_tree a) = fmt alternate (int_tree b) <-> a = b) /\
  (forall a b, fmt alternate (rat_tree a) = fmt alternate (rat_tree b) <-> a = b) /\
  (forall a b, fmt alternate (mdeg_tree a) = fmt alternate (mdeg_tree b) <-> a = b).
Proof.
  intros alternate. repeat split; intros; try congruence.
  - apply int_tree_inj. apply (fmt_inj alternate); auto using int_tree_wf.
  - apply rat_tree_inj. apply (fmt_inj alternate); auto using rat_tree_wf.
  - apply mdeg_tree_inj. apply (fmt_inj alternate); auto using mdeg_tree_wf.
Qed.
(** polynomials, terms and matrices over Rational *)
Theorem C114_rational : forall m, debug_ok (F := rat_impl m) rat_tree (fun _ => True).
Proof. intros m. split; [intros x _; apply rat_tree_wf|intros x y _ _; apply rat_tree_inj]. Qed.
(** and over types with plain texts, as f32 and f64: the texts consist of letters, digits and the signs +, - and .  *)
Theorem C114_plain : forall (F : FieldImpl) (show : F -> chars) (ok : F -> Prop),
  (forall x, ok x -> show x <> [] /\ forallb is_word (show x) = true) -> (forall x y, ok x -> ok y -> show x = show y -> x = y) ->
  debug_ok (fun x => DAtom (show x)) ok.
Proof. intros F show ok H1 H2. split; [exact H1|]. intros x y Hx Hy E. injection E as E. apply H2; assumption. Qed.
(** the texts used by Display of Mat (C89) are those of "{:?}" *)
Theorem C114_rat_debug : forall r, fmt false (rat_tree r) = rat_debug r.
Proof. intros [n d]. unfold rat_debug, int_debug. repeat (cbn -[int_display]; rewrite <- ?app_assoc). reflexivity. Qed.

(** ** The texts *)
(** comma and space between the items *)
Definition commas (l : list chars) : chars :=
  match l with [] => [] | x :: l' => x ++ concat (map (fun y => str ", " ++ y) l') end.
Lemma join_commas l : join l = commas l.
Proof.
  induction l as [|x [|y l] IH]; [reflexivity|cbn; rewrite app_nil_r; reflexivity|].
  cbn [join] in *. rewrite IH. cbn. rewrite <- ?app_assoc. reflexivity.
Qed.
(** four spaces before each line *)
Definition indent (s : chars) : chars := str "    " ++ flat_map (fun c => if c =? 10 then 10 :: str "    " else [c]) s.
(** one item on lines of its own *)
Definition item_lines (s : chars) : chars := indent s ++ [44; 10].
Lemma pad_item s : pad (s ++ [44; 10]) = item_lines s.
Proof.
  assert (H : forall b, pad_from b (s ++ [44; 10]) = (if b then [32; 32; 32; 32] else []) ++ flat_map (fun c => if c =? 10 then 10 :: str "    " else [c]) s ++ [44; 10]).
  { induction s as [|c s IH]; intros b; [destruct b; reflexivity|]. cbn [app pad_from flat_map]. rewrite IH.
    destruct (c =? 10) eqn:E; [apply Z.eqb_eq in E; subst c|]; cbn [app]; rewrite <- ?app_assoc; reflexivity. }
  unfold pad, item_lines, indent. rewrite H. rewrite <- app_assoc. reflexivity.
Qed.
(** every type in the format {:?} *)
Theorem C114_text : forall (F : FieldImpl) (ft : F -> dtree) (z : Z) (r : rat) (v : mdeg) (t : term F) (p : poly F) (a : mat F),
  fmt false (int_tree z) = str "Integer(" ++ int_display z ++ str ")" /\
  fmt false (rat_tree r) = str "Rational { numer: Integer(" ++ int_display (numer r) ++ str "), denom: Integer(" ++ int_display (denom r) ++ str ") }" /\
  fmt false (mdeg_tree v) = str "MultiDegree([" ++ commas (map (fun d => int_display (Z.of_nat d)) v) ++ str "])" /\
  fmt false (term_tree ft t) = str "Term { coef: " ++ fmt false (ft (coef t)) ++ str ", mdeg: " ++ fmt false (mdeg_tree (tdeg t)) ++ str " }" /\
  fmt false (poly_tree ft p) = str "Polynomial { terms: [" ++ commas (map (fun u => fmt false (term_tree ft u)) p) ++ str "] }" /\
  fmt false (mat_tree ft a) = str "Mat { entries: [" ++ commas (map (fun x => fmt false (ft x)) (ments a)) ++ str "], rows: " ++
    int_display (Z.of_nat (mrows a)) ++ str ", cols: " ++ int_display (Z.of_nat (mcols a)) ++ str " }".
Proof.
  intros F ft z r v t p a.
  assert (N : forall n : nat, dec_string (Z.of_nat n) = int_display (Z.of_nat n)).
  { intros n. unfold int_display. destruct (Z.ltb_spec (Z.of_nat n) 0) as [H|_]; [lia|reflexivity]. }
  assert (X : forall k name l, fmt false (DNode k name l) = dopen false k name ++ commas (map (fun y => ditem k (fst y) (fmt false (snd y))) l) ++ dclose false k).
  { intros k name l. cbn [fmt dbody]. rewrite join_commas. reflexivity. }
  assert (D : forall A (f : A -> dtree) l, fmt false (dlist f l) = str "[" ++ commas (map (fun x => fmt false (f x)) l) ++ str "]").
  { intros A f l. unfold dlist. rewrite X, map_map. reflexivity. }
  repeat split.
  - rewrite C114_rat_debug. unfold rat_debug, int_debug. cbn -[int_display]. rewrite <- ?app_assoc. reflexivity.
  - unfold mdeg_tree. rewrite X. cbn [map fst snd ditem dopen dclose]. rewrite D. cbn [fmt nat_tree]. rewrite (map_ext _ (fun d => int_display (Z.of_nat d))) by exact N.
    cbn [commas map concat]. rewrite app_nil_r, <- ?app_assoc. reflexivity.
  - unfold term_tree. rewrite X. cbn [map fst snd ditem dopen dclose commas concat]. rewrite app_nil_r, <- ?app_assoc. reflexivity.
  - unfold poly_tree. rewrite X. cbn [map fst snd ditem dopen dclose]. rewrite D. cbn [commas map concat]. rewrite app_nil_r, <- ?app_assoc. reflexivity.
  - unfold mat_tree. rewrite X. cbn [map fst snd ditem dopen dclose]. rewrite D. cbn [fmt nat_tree]. unfold nat_tree. cbn [fmt]. rewrite !N. unfold commas at 1. cbn [map concat].
    rewrite app_nil_r, <- ?app_assoc. reflexivity.
Qed.
(** every type in the format {:#?} *)
Theorem C114_text_alternate : forall (F : FieldImpl) (ft : F -> dtree) (z : Z) (r : rat) (v : mdeg) (t : term F) (p : poly F) (a : mat F),
  let nl := [10] in
  let list_lines := fun l : list chars => match l with [] => str "[]" | _ => str "[" ++ nl ++ concat (map item_lines l) ++ str "]" end in
  fmt true (int_tree z) = str "Integer(" ++ nl ++ item_lines (int_display z) ++ str ")" /\
  fmt true (rat_tree r) = str "Rational {" ++ nl ++ item_lines (str "numer: " ++ fmt true (int_tree (numer r))) ++
    item_lines (str "denom: " ++ fmt true (int_tree (denom r))) ++ str "}" /\
  fmt true (mdeg_tree v) = str "MultiDegree(" ++ nl ++ item_lines (list_lines (map (fun d => int_display (Z.of_nat d)) v)) ++ str ")" /\
  fmt true (term_tree ft t) = str "Term {" ++ nl ++ item_lines (str "coef: " ++ fmt true (ft (coef t))) ++
    item_lines (str "mdeg: " ++ fmt true (mdeg_tree (tdeg t))) ++ str "}" /\
  fmt true (poly_tree ft p) = str "Polynomial {" ++ nl ++ item_lines (str "terms: " ++ list_lines (map (fun u => fmt true (term_tree ft u)) p)) ++ str "}" /\
  fmt true (mat_tree ft a) = str "Mat {" ++ nl ++ item_lines (str "entries: " ++ list_lines (map (fun x => fmt true (ft x)) (ments a))) ++
    item_lines (str "rows: " ++ int_display (Z.of_nat (mrows a))) ++ item_lines (str "cols: " ++ int_display (Z.of_nat (mcols a))) ++ str "}".
Proof.
  intros F ft z r v t p a nl list_lines.
  assert (N : forall n : nat, dec_string (Z.of_nat n) = int_display (Z.of_nat n)).
  { intros n. unfold int_display. destruct (Z.ltb_spec (Z.of_nat n) 0) as [H|_]; [lia|reflexivity]. }
  assert (B : forall x l, dbody true (x :: l) = 10 :: concat (map item_lines (x :: l))).
  { intros x l. unfold dbody. rewrite (map_ext _ item_lines) by exact pad_item. reflexivity. }
  assert (D : forall A (f : A -> dtree) l, fmt true (dlist f l) = list_lines (map (fun x => fmt true (f x)) l)).
  { intros A f l. unfold dlist, list_lines. cbn [fmt dopen dclose]. rewrite map_map. cbn [ditem snd fst]. destruct l as [|x l]; [reflexivity|]. cbn [map]. rewrite B. reflexivity. }
  assert (X : forall k name x l, fmt true (DNode k name (x :: l)) =
    dopen true k name ++ nl ++ concat (map (fun y => item_lines (ditem k (fst y) (fmt true (snd y)))) (x :: l)) ++ dclose true k).
  { intros k name x l. cbn [fmt]. cbn [map]. rewrite B. cbn [map concat]. rewrite map_map. reflexivity. }
  repeat split.
  - unfold int_tree at 1. rewrite X. cbn [map concat fst snd ditem dopen dclose fmt]. rewrite <- ?app_assoc. reflexivity.
  - unfold rat_tree. rewrite X. cbn [map concat fst snd ditem dopen dclose]. rewrite <- ?app_assoc. reflexivity.
  - unfold mdeg_tree. rewrite X. cbn [map concat fst snd ditem dopen dclose]. rewrite D. cbn [fmt nat_tree]. rewrite (map_ext _ (fun d => int_display (Z.of_nat d))) by exact N.
    rewrite <- ?app_assoc. reflexivity.
  - unfold term_tree. rewrite X. cbn [map concat fst snd ditem dopen dclose]. rewrite <- ?app_assoc. reflexivity.
  - unfold poly_tree. rewrite X. cbn [map concat fst snd ditem dopen dclose]. rewrite D. rewrite <- ?app_assoc. reflexivity.
  - unfold mat_tree. rewrite X. cbn [map concat fst snd ditem dopen dclose]. rewrite D. unfold nat_tree. cbn [fmt]. rewrite !N. rewrite <- ?app_assoc. reflexivity.
Qed.

(** 2/3 x_1^2 - 1 in both formats *)
Notation R := (rat_impl Debug).
Definition ex_p : poly R := [mkterm (F := R) (mkrat 2 3) [0; 2]%nat; mkterm (F := R) (mkrat (-1) 1) []].
Example C114_ex_plain : fmt false (poly_tree (F := R) rat_tree ex_p) = str
  "Polynomial { terms: [Term { coef: Rational { numer: Integer(2), denom: Integer(3) }, mdeg: MultiDegree([0, 2]) }, Term { coef: Rational { numer: Integer(-1), denom: Integer(1) }, mdeg: MultiDegree([]) }] }".
Proof. reflexivity. Qed.
Example C114_ex_alternate : fmt true (poly_tree (F := R) rat_tree ex_p) = str
"Polynomial {
    terms: [
        Term {
            coef: Rational {
                numer: Integer(
                    2,
                ),
                denom: Integer(
                    3,
                ),
            },
            mdeg: MultiDegree(
                [
                    0,
                    2,
                ],
            ),
        },
        Term {
            coef: Rational {
                numer: Integer(
                    -1,
                ),
                denom: Integer(
                    1,
                ),
            },
            mdeg: MultiDegree(
                [],
            ),
        },
    ],
}".
Proof. reflexivity. Qed.
(** Display and Debug of a 1 x 2 matrix *)
Definition ex_row : mat R := mkmat (F := R) [mkrat 0 1; mkrat 3 1] 1 2.
Example C114_ex_mat : mat_fmt (F := R) rat_tree true ex_row = Ok (str
"
[
    Rational {
        numer: Integer(
            0,
        ),
        denom: Integer(
            1,
        ),
    },
    Rational {
        numer: Integer(
            3,
        ),
        denom: Integer(
            1,
        ),
    },
]") /\
  fmt false (mat_tree (F := R) rat_tree ex_row) = str
  "Mat { entries: [Rational { numer: Integer(0), denom: Integer(1) }, Rational { numer: Integer(3), denom: Integer(1) }], rows: 1, cols: 2 }".
Proof. split; reflexivity. Qed.
Example C114_ex_hyps : Forall (fun t : term R => True) ex_p /\ length (ments ex_row) = (mrows ex_row * mcols ex_row)%nat /\ (0 < mrows ex_row)%nat.
Proof. split; [repeat constructor|]. split; [reflexivity|]. cbn. lia. Qed.
Example C114_ex_message : eval_message (F := R) rat_tree [mkrat 1 2] (mkterm (F := R) (mkrat 1 1) [0; 1]%nat) = str
  "incorrectly sized argument [Rational { numer: Integer(1), denom: Integer(2) }] passed to term Term { coef: Rational { numer: Integer(1), denom: Integer(1) }, mdeg: MultiDegree([0, 1]) }".
Proof. reflexivity. Qed.

Print Assumptions C114_term.
Print Assumptions C114_poly.
Print Assumptions C114_mat.
Print Assumptions C114_eval_message.
Print Assumptions C114_mat_display_plain.
Print Assumptions C114_mat_display_text.
Print Assumptions C114_mat_display_injective.
Print Assumptions C114_numbers.
Print Assumptions C114_rational.
Print Assumptions C114_plain.
Print Assumptions C114_rat_debug.
Print Assumptions C114_text.
Print Assumptions C114_text_alternate.
