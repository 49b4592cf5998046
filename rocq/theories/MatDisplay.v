(** * Model of the Display impl of Mat (src/linalg/mat.rs:325-339) and of the derived Debug impls of
    Integer and Rational (int.rs:5, rat.rs:11), which it uses for the entries.

    A string is the list of its Unicode code points.  This is the format "{}"; for "{:#}", where
    debug_list puts every entry on its own line, see DebugModel. *)
From Verif Require Import Base BaseLemmas IntModel RatModel FieldIface MatModel DisplayModel DisplayProofs.
Local Open Scope Z_scope.

(** ** Model *)
(** core::fmt::DebugList without flags: the entries separated by comma and space, in brackets *)
Definition debug_list {A} (show : A -> chars) (l : list A) : chars := 91 :: join (map show l) ++ [93].
(** mat.rs:326-338, given the Debug impl of the entries; the slice is that of get_row_iter *)
Definition mat_display {F : FieldImpl} (show : F -> chars) (a : mat F) : res chars :=
  foldM (fun (acc : chars) (r : nat) =>
      row <- mat_row_slice a r ;;
      let acc := acc ++ debug_list show row in
      Ok (if negb (Nat.eqb r (mrows a - 1)) then acc ++ [10] else acc)) (seq 0 (mrows a)) [10].

(** int.rs:5, derived Debug of the tuple struct: Integer(5) *)
Definition int_debug (z : Z) : chars := [73; 110; 116; 101; 103; 101; 114; 40] ++ int_display z ++ [41].
(** rat.rs:11, derived Debug of the struct: Rational { numer: Integer(1), denom: Integer(2) } *)
Definition rat_debug (r : rat) : chars :=
  [82; 97; 116; 105; 111; 110; 97; 108; 32; 123; 32; 110; 117; 109; 101; 114; 58; 32] ++ int_debug (numer r) ++
  [44; 32; 100; 101; 110; 111; 109; 58; 32] ++ int_debug (denom r) ++ [32; 125].

(** ** Lemmas *)
(** what follows an entry: a comma or the closing bracket *)
Definition delim (v : chars) : Prop := match v with c :: _ => c = 44 \/ c = 93 | [] => False end.
(** an entry can be recognised in a list *)
Definition readable {A} (show : A -> chars) (ok : A -> Prop) : Prop :=
  (forall a b u v, ok a -> ok b -> delim u -> delim v -> show a ++ u = show b ++ v -> a = b /\ u = v) /\
  (forall a, ok a -> exists c s, show a = c :: s /\ c <> 93).

Lemma join_read {A} (show : A -> chars) ok : readable show ok -> forall l l' u v,
  Forall ok l -> Forall ok l' -> join (map show l) ++ 93 :: u = join (map show l') ++ 93 :: v -> l = l' /\ u = v.
Proof.
  intros [R1 R2]. assert (N : forall x l u v, ok x -> join (map show (x :: l)) ++ u = 93 :: v -> False).
  { intros x l u v Hx E. destruct (R2 x Hx) as (c & s & Es & Ec). destruct l; cbn [map join] in E; rewrite Es in E; injection E; congruence. }
  induction l as [|x l IH]; intros l' u v Hl Hl' E.
  - destruct l' as [|y l']; [injection E; auto|]. exfalso. inversion Hl'; subst. symmetry in E. exact (N _ _ _ _ ltac:(eassumption) E).
  - destruct l' as [|y l']; [exfalso; inversion Hl; subst; exact (N _ _ _ _ ltac:(eassumption) E)|].
    inversion Hl as [|? ? Hx Hr]; inversion Hl' as [|? ? Hy Hr']; subst.
    assert (X : forall z k w, exists t, join (map show (z :: k)) ++ 93 :: w = show z ++ t /\ delim t /\
        (t = 93 :: w /\ k = [] \/ k <> [] /\ t = 44 :: 32 :: join (map show k) ++ 93 :: w)).
    { intros z k w. destruct k as [|k0 k].
      - exists (93 :: w). split; [reflexivity|]. split; [right; reflexivity|]. left. auto.
      - exists (44 :: 32 :: join (map show (k0 :: k)) ++ 93 :: w). split; [|split; [left; reflexivity|right; split; [discriminate|reflexivity]]].
        change (join (map show (z :: k0 :: k))) with (show z ++ 44 :: 32 :: join (map show (k0 :: k))). rewrite <- app_assoc. reflexivity. }
    destruct (X x l u) as (t & Et & Dt & Ct). destruct (X y l' v) as (t' & Et' & Dt' & Ct'). rewrite Et, Et' in E.
    destruct (R1 _ _ _ _ Hx Hy Dt Dt' E) as [<- <-].
    destruct Ct as [[-> ->]|[Nl ->]], Ct' as [[C ->]|[Nl' C]].
    + injection C. auto.
    + discriminate.
    + discriminate.
    + injection C as C. destruct (IH l' u v Hr Hr' C). subst. auto.
Qed.
Lemma debug_list_read {A} (show : A -> chars) ok : readable show ok -> forall l l' u v,
  Forall ok l -> Forall ok l' -> debug_list show l ++ u = debug_list show l' ++ v -> l = l' /\ u = v.
Proof.
  intros R l l' u v Hl Hl' E. unfold debug_list in E. injection E as E. rewrite <- !app_assoc in E. cbn [app] in E.
  exact (join_read show ok R l l' u v Hl Hl' E).
Qed.

Lemma int_display_no z c : is_num c = false -> ~ In c (int_display z).
Proof. intros H I. pose proof (int_display_num z) as D. rewrite forallb_forall in D. rewrite (D _ I) in H. discriminate. Qed.
Lemma int_debug_read a b u v : int_debug a ++ u = int_debug b ++ v -> a = b /\ u = v.
Proof.
  unfold int_debug. rewrite <- !app_assoc. intros E. apply app_inv_head in E.
  apply (span_eq is_num) in E; [|apply int_display_num|apply int_display_num|reflexivity|reflexivity].
  destruct E as [E1 E2]. apply int_display_inj in E1. injection E2 as E2. auto.
Qed.
Lemma rat_debug_readable : readable rat_debug (fun _ => True).
Proof.
  split.
  - intros [n d] [n' d'] u v _ _ _ _ E. unfold rat_debug in E. cbn [numer denom] in E. rewrite <- !app_assoc in E.
    apply app_inv_head in E. apply int_debug_read in E. destruct E as [-> E]. apply app_inv_head in E.
    apply int_debug_read in E. destruct E as [-> E]. apply app_inv_head in E. auto.
  - intros r _. unfold rat_debug. eexists. eexists. split; [reflexivity|discriminate].
Qed.
Lemma rat_debug_nonl r : ~ In 10 (rat_debug r).
Proof.
  unfold rat_debug, int_debug. intros H. repeat (apply in_app_or in H; destruct H as [H|H]);
  try (apply int_display_no in H; [exact H|reflexivity]); repeat (destruct H as [H|H]; [discriminate|]); destruct H.
Qed.

Section Mat.
Context {F : FieldImpl} (show : F -> chars).
Notation mat := (mat F).
(** the rows of a matrix *)
Definition mrow (a : mat) (r : nat) : list F := firstn (mcols a) (skipn (r * mcols a) (ments a)).
Definition row_line (a : mat) (r : nat) : chars := debug_list show (mrow a r).
Fixpoint lines (a : mat) (k n : nat) : chars :=
  match n with
  | O => []
  | S O => row_line a k
  | S n' => row_line a k ++ 10 :: lines a (S k) n'
  end.
Lemma mat_row_slice_ok (a : mat) r : (r < mrows a)%nat -> (mrows a * mcols a <= length (ments a))%nat ->
  mat_row_slice a r = Ok (mrow a r).
Proof.
  intros H L. unfold mat_row_slice. assert (Nat.leb ((r + 1) * mcols a) (length (ments a)) = true) as -> by (apply Nat.leb_le; nia).
  reflexivity.
Qed.
Lemma mat_display_from (a : mat) : (mrows a * mcols a <= length (ments a))%nat -> forall n k acc, (k + n = mrows a)%nat ->
  foldM (fun (acc : chars) (r : nat) =>
      row <- mat_row_slice a r ;;
      let acc := acc ++ debug_list show row in
      Ok (if negb (Nat.eqb r (mrows a - 1)) then acc ++ [10] else acc)) (seq k n) acc = Ok (acc ++ lines a k n).
Proof.
  intros L. induction n as [|n IH]; intros k acc E; cbn [seq foldM lines]; [rewrite app_nil_r; reflexivity|].
  rewrite mat_row_slice_ok by (try assumption; lia). cbn [bind]. rewrite IH by lia. f_equal.
  destruct n as [|n]; cbn [lines].
  - assert (Nat.eqb k (mrows a - 1) = true) as -> by (apply Nat.eqb_eq; lia). cbn [negb]. rewrite app_nil_r. reflexivity.
  - assert (Nat.eqb k (mrows a - 1) = false) as -> by (apply Nat.eqb_neq; lia). cbn [negb]. rewrite <- !app_assoc. reflexivity.
Qed.
Lemma mat_display_ok (a : mat) : (mrows a * mcols a <= length (ments a))%nat -> mat_display show a = Ok (10 :: lines a 0 (mrows a)).
Proof. intros L. unfold mat_display. rewrite mat_display_from by (assumption || lia). reflexivity. Qed.
Lemma mat_display_panic (a : mat) : (length (ments a) < mrows a * mcols a)%nat -> mat_display show a = Panic IndexOOB.
Proof.
  intros L. unfold mat_display.
  assert (G : forall n k acc, (k + n = mrows a)%nat -> (1 <= n)%nat -> foldM (fun (acc : chars) (r : nat) =>
      row <- mat_row_slice a r ;;
      let acc := acc ++ debug_list show row in
      Ok (if negb (Nat.eqb r (mrows a - 1)) then acc ++ [10] else acc)) (seq k n) acc = Panic IndexOOB).
  { induction n as [|n IH]; intros k acc E H; [lia|]. cbn [seq foldM]. unfold mat_row_slice at 1.
    destruct (Nat.leb_spec ((k + 1) * mcols a) (length (ments a))) as [B|B]; [|reflexivity].
    cbn [bind]. apply IH; [lia|]. destruct n; [|lia]. exfalso. assert (mrows a = S k) as X by lia. rewrite X in L. nia. }
  apply G; [reflexivity|]. destruct (mrows a); lia.
Qed.
Lemma lines_step (a : mat) k n : (n <> 0)%nat -> lines a k (S n) = row_line a k ++ 10 :: lines a (S k) n.
Proof. destruct n; [congruence|reflexivity]. Qed.

Lemma join_nonl l : (forall x, In x l -> ~ In 10 (show x)) -> ~ In 10 (join (map show l)).
Proof.
  induction l as [|x l IH]; intros H; [intros []|]. destruct l as [|y l]; [apply H; left; reflexivity|].
  change (~ In 10 (show x ++ 44 :: 32 :: join (map show (y :: l)))). intros I. apply in_app_or in I.
  destruct I as [I|[I|[I|I]]]; try discriminate; [exact (H x (or_introl eq_refl) I)|].
  apply IH; [|exact I]. intros z Hz. apply H. right. exact Hz.
Qed.
Lemma row_line_nonl (a : mat) r : (forall x, ~ In 10 (show x)) -> ~ In 10 (row_line a r).
Proof.
  intros H I. unfold row_line, debug_list in I. destruct I as [I|I]; [discriminate|]. apply in_app_or in I.
  destruct I as [I|[I|[]]]; [|discriminate]. revert I. apply join_nonl. intros x _. apply H.
Qed.
Lemma count_nonl l : ~ In 10 l -> count_occ Z.eq_dec l 10 = 0%nat.
Proof. apply count_occ_not_In. Qed.
Lemma lines_count (a : mat) : (forall x, ~ In 10 (show x)) -> forall n k, count_occ Z.eq_dec (lines a k n) 10 = (n - 1)%nat.
Proof.
  intros H. induction n as [|n IH]; intros k; [reflexivity|]. destruct n as [|n].
  - cbn [lines]. rewrite count_nonl by (apply row_line_nonl; exact H). reflexivity.
  - rewrite lines_step by discriminate. rewrite count_occ_app, count_nonl by (apply row_line_nonl; exact H).
    rewrite count_occ_cons_eq by reflexivity. rewrite IH. lia.
Qed.

Lemma Forall_mrow (P : F -> Prop) (a : mat) r : Forall P (ments a) -> Forall P (mrow a r).
Proof.
  intros H. unfold mrow. rewrite Forall_forall in *. intros x Hx. apply H.
  rewrite <- (firstn_skipn (r * mcols a) (ments a)). apply in_or_app. right.
  rewrite <- (firstn_skipn (mcols a) (skipn _ _)). apply in_or_app. left. exact Hx.
Qed.
Lemma lines_read ok (a b : mat) : readable show ok -> Forall ok (ments a) -> Forall ok (ments b) ->
  forall n n' k, lines a k n = lines b k n' -> n = n' /\ forall i, (i < n)%nat -> mrow a (k + i) = mrow b (k + i).
Proof.
  intros R Ha Hb.
  assert (H0 : forall c k n, lines c k (S n) <> []) by (intros c k n; destruct n; discriminate).
  induction n as [|n IH]; intros [|n'] k E.
  - split; [reflexivity|lia].
  - exfalso. symmetry in E. exact (H0 _ _ _ E).
  - exfalso. exact (H0 _ _ _ E).
  - assert (X : forall c j p, exists t, lines c j (S p) = row_line c j ++ t /\ (p = 0%nat /\ t = [] \/ p <> 0%nat /\ t = 10 :: lines c (S j) p)).
    { intros c j p. destruct p; [exists []; rewrite app_nil_r; cbn; auto|]. eexists. split; [apply lines_step; discriminate|]. right. auto. }
    destruct (X a k n) as (t & Et & Ct), (X b k n') as (t' & Et' & Ct'). rewrite Et, Et' in E.
    unfold row_line in E. apply (debug_list_read show ok R) in E; [|apply Forall_mrow; assumption|apply Forall_mrow; assumption].
    destruct E as [E1 <-]. destruct Ct as [[-> ->]|[N ->]], Ct' as [[-> C]|[N' C]]; try discriminate.
    + split; [reflexivity|]. intros i Hi. assert (i = 0%nat) as -> by lia. rewrite Nat.add_0_r. exact E1.
    + injection C as C. destruct (IH n' (S k) C) as [<- I]. split; [reflexivity|]. intros [|i] Hi; [rewrite Nat.add_0_r; exact E1|].
      replace (k + S i)%nat with (S k + i)%nat by lia. apply I. lia.
Qed.
Lemma rows_concat (l : list F) c n : length l = (n * c)%nat -> l = concat (map (fun r => firstn c (skipn (r * c) l)) (seq 0 n)).
Proof.
  revert l. induction n as [|n IH]; intros l L; [destruct l; [reflexivity|discriminate]|].
  cbn [seq map concat]. cbn [Nat.mul skipn]. rewrite <- (firstn_skipn c l) at 1. f_equal.
  rewrite IH at 1 by (rewrite skipn_length; lia). f_equal. rewrite <- seq_shift, map_map. apply map_ext. intros r.
  cbn [Nat.mul]. f_equal. clear. revert l. generalize (r * c)%nat. induction c as [|c IH]; intros m l; [reflexivity|].
  cbn [Nat.add]. destruct l; [rewrite !skipn_nil; reflexivity|]. cbn [skipn]. apply IH.
Qed.
Lemma mat_display_inj ok (a b : mat) s : readable show ok -> Forall ok (ments a) -> Forall ok (ments b) ->
  length (ments a) = (mrows a * mcols a)%nat -> length (ments b) = (mrows b * mcols b)%nat -> (0 < mrows a)%nat ->
  mat_display show a = Ok s -> mat_display show b = Ok s -> a = b.
Proof.
  intros R Ha Hb La Lb P Ea Eb. rewrite mat_display_ok in Ea by lia. rewrite mat_display_ok in Eb by lia.
  rewrite <- Eb in Ea. injection Ea as E. destruct (lines_read ok a b R Ha Hb _ _ _ E) as [N I].
  assert (C : mcols a = mcols b).
  { specialize (I 0%nat P). cbn [Nat.add] in I. unfold mrow in I. apply (f_equal (@length F)) in I.
    rewrite !firstn_length, !skipn_length in I. cbn [Nat.mul] in I. nia. }
  assert (M : ments a = ments b).
  { rewrite (rows_concat (ments a) (mcols a) (mrows a) La), (rows_concat (ments b) (mcols b) (mrows b) Lb). rewrite <- N. f_equal.
    apply map_ext_in. intros r Hr. apply in_seq in Hr. exact (I r ltac:(lia)). }
  destruct a, b; cbn in *; congruence.
Qed.
End Mat.
