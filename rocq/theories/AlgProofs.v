(** * Proofs about elimination. *)
From Verif Require Import Base BaseLemmas FieldIface UtilModel MatModel AlgModel LinSpec RrefSpec MatProofs.
From Coq Require Import Field_theory Ring Field Permutation.

(** ** get_max_index: [I k i x] says that after looking at [k] elements the best is [x] at index [i] *)
Lemma get_max_index_inv {A : Type} (le : A -> A -> res (option comparison)) (l : list A)
  (I : nat -> nat -> A -> Prop) :
  l <> [] ->
  (forall x, nth_error l 0 = Some x -> I 1 0 x) ->
  (forall k i x y, 0 < k -> nth_error l k = Some y -> I k i x ->
     safe (le x y) (fun o => exists c, o = Some c /\ (c = Gt -> I (k + 1) i x) /\ (c <> Gt -> I (k + 1) k y))) ->
  safe (get_max_index le l) (fun i => exists x, I (length l) i x).
Proof.
  intros N H0 HS. unfold get_max_index, enumerate. destruct l as [|x0 l]; [congruence|].
  cbn [length seq combine max_by].
  assert (G : forall (l2 l1 : list A) best, x0 :: l = l1 ++ l2 -> l1 <> [] -> I (length l1) (fst best) (snd best) ->
    safe (foldM (fun p q => c <- (c <- le (snd p) (snd q) ;; unwrap c) ;; Ok (match c with Gt => p | _ => q end))
            (combine (seq (length l1) (length l2)) l2) best)
      (fun b => I (length (x0 :: l)) (fst b) (snd b))).
  { induction l2 as [|y l2 IH]; intros l1 best E N1 Hb.
    - rewrite app_nil_r in E. rewrite E. exact Hb.
    - cbn [length seq combine foldM]. rewrite bind_assoc. 
      assert (Hy : nth_error (x0 :: l) (length l1) = Some y).
      { rewrite E, nth_error_app2, Nat.sub_diag by lia. reflexivity. }
      assert (L1 : 0 < length l1) by (destruct l1; [congruence|simpl; lia]).
      cbn [snd]. rewrite bind_assoc. eapply safe_bind; [exact (HS _ _ _ _ L1 Hy Hb)|].
      intros o (c & -> & G1 & G2). cbn [unwrap bind].
      specialize (IH (l1 ++ [y])). rewrite app_length, <- app_assoc in IH. cbn [length app] in IH.
      rewrite Nat.add_1_r in IH, G1, G2.
      destruct c; (apply IH; [exact E|destruct l1; discriminate|cbn [fst snd]; first [apply G2; discriminate|apply G1; reflexivity]]). }
  rewrite bind_assoc. eapply safe_bind.
  - apply (G l [x0] (0, x0)); [reflexivity|discriminate|]. cbn [length fst snd]. apply H0. reflexivity.
  - intros b Hb. cbn [bind unwrap]. apply safe_Ok. exists (snd b). exact Hb.
Qed.

Lemma skipn_map_seq {B : Type} (f : nat -> B) s n r : skipn r (map f (seq s n)) = map f (seq (s + r) (n - r)).
Proof.
  revert s n; induction r; intros s n; simpl.
  - rewrite Nat.add_0_r, Nat.sub_0_r. reflexivity.
  - destruct n; simpl; [reflexivity|]. rewrite IHr. rewrite Nat.add_succ_r. reflexivity.
Qed.

Section Alg.
Context {F : FieldImpl} {K : MathField} (FS : FieldSpec F K) (T : StabImpl F) (TS : StabSpec FS T).
Add Field Kf13 : (kth K).
Notation mat := (mat F).
Notation fmat := (nat -> nat -> K).
Notation wf := (fwf FS).
Notation dn := (den FS).
Notation mrep := (mrep FS).

Ltac eqb := repeat match goal with
  | |- context [?x =? ?y] => destruct (Nat.eqb_spec x y); subst
  | |- context [?x <? ?y] => destruct (Nat.ltb_spec x y); subst
  | |- context [?x <=? ?y] => destruct (Nat.leb_spec x y); subst
  end; cbn [andb orb negb]; try congruence; try lia.

(** the most stable entry is zero only if all are *)
Lemma max_index_stab (l : list F) : l <> [] -> Forall wf l ->
  safe (get_max_index (fstab T) l) (fun i => i < length l /\
    (dn (nth i l f0) = k0 -> Forall (fun x => dn x = k0) l)).
Proof.
  intros N W. eapply safe_mono.
  - apply (get_max_index_inv _ l (fun k i x => i < k /\ k <= length l /\ nth_error l i = Some x /\
       (dn x = k0 -> forall q y, q < k -> nth_error l q = Some y -> dn y = k0))); [exact N| |].
    + intros x Hx. split; [lia|]. split; [destruct l; [congruence|simpl; lia]|]. split; [exact Hx|].
      intros D q y Hq Hy. assert (q = 0) by lia. subst. congruence.
    + intros k i x y Hk Hy (Hi & Hkl & Hx & HD).
      rewrite Forall_forall in W.
      assert (Wx : wf x) by (apply W; eapply nth_error_In; exact Hx).
      assert (Wy : wf y) by (apply W; eapply nth_error_In; exact Hy).
      assert (Lk : k < length l) by (apply nth_error_Some; congruence).
      eapply safe_mono; [apply (stab_ok _ _ TS); assumption|].
      intros o (c & -> & G1 & G2). exists c. split; [reflexivity|]. split.
      * intros ->. split; [lia|]. split; [lia|]. split; [exact Hx|]. intros D. exfalso. apply (G2 D). reflexivity.
      * intros Nc. split; [lia|]. split; [lia|]. split; [exact Hy|]. intros D q z Hq Hz.
        destruct (Nat.eq_dec q k) as [->|Nq]; [congruence|].
        destruct (kdec (dn x) k0) as [Dx|Dx]; [apply (HD Dx q); [lia|exact Hz]|].
        exfalso. apply Nc, G1; assumption.
  - intros i (x & Hi & _ & Hx & HD). split; [exact Hi|].
    intros D. apply Forall_forall. intros y Hy. apply In_nth_error in Hy. destruct Hy as [q Hq].
    apply (HD) with q; [|apply nth_error_Some; congruence|exact Hq].
    rewrite (nth_error_nth _ _ _ Hx) in D. exact D.
Qed.

Lemma stable_column_index_ok a n m A c r : mrep a n m A -> c < m -> r < n ->
  safe (stable_column_index T a c r) (fun o =>
    match o with
    | None => forall i, r <= i -> i < n -> A i c = k0
    | Some (si, x) => r <= si /\ si < n /\ wf x /\ dn x = A si c /\ dn x <> k0
    end).
Proof.
  intros R Hc Hr. pose proof R as (S & Ra & Ca & H). unfold stable_column_index.
  rewrite col_list_ok by (try assumption; lia). cbn [bind]. rewrite Ra, skipn_map_seq. rewrite Nat.add_0_l.
  set (l := map (fun i => mentry a i c) (seq r (n - r))).
  assert (Ll : length l = n - r) by (unfold l; rewrite map_length, seq_length; reflexivity).
  assert (Nl : forall i, i < n - r -> nth i l f0 = mentry a (r + i) c).
  { intros i Hi. unfold l. apply nth_map_seq. exact Hi. }
  eapply safe_bind.
  - apply max_index_stab.
    + intros E. rewrite E in Ll. simpl in Ll. lia.
    + apply Forall_forall. intros x Hx. apply in_map_iff in Hx. destruct Hx as (i & <- & Hi).
      apply in_seq in Hi. apply H; lia.
  - intros i (Hi & HD). rewrite Ll in Hi.
    destruct (mrep_get FS _ _ _ _ (i + r) c R ltac:(lia) Hc) as (x & -> & Wx & Dx & Ex). cbn [bind].
    assert (Ni : nth i l f0 = x) by (rewrite Nl by exact Hi; rewrite Nat.add_comm; congruence).
    destruct (feps T x f0) eqn:E; apply safe_Ok.
    + apply (eps0 _ _ TS) in E; [|exact Wx]. rewrite Ni in HD. specialize (HD E).
      intros q Hq1 Hq2. rewrite Forall_forall in HD. destruct (H q c Hq2 Hc) as [_ <-]. apply HD.
      unfold l. apply in_map_iff. exists q. split; [reflexivity|apply in_seq; lia].
    + repeat split; try assumption; try lia. intros D. apply (eps0 _ _ TS) in D; [congruence|exact Wx].
Qed.

Lemma first_nonzero_ok a n m A r : mrep a n m A -> r < n ->
  exists o, first_nonzero T a r = Ok o /\
    match o with
    | None => forall j, j < m -> A r j = k0
    | Some c => c < m /\ A r c <> k0 /\ forall j, j < c -> A r j = k0
    end.
Proof.
  intros (S & Ra & Ca & H) Hr. unfold first_nonzero, mat_get_row.
  rewrite row_slice_ok by (try assumption; lia). cbn [bind mat_from_iter ments]. rewrite Ca.
  eexists. split; [reflexivity|].
  set (l := map (fun c => mentry a r c) (seq 0 m)).
  assert (Ll : length l = m) by (unfold l; rewrite map_length, seq_length; reflexivity).
  assert (Nl : forall j, j < m -> nth j l f0 = mentry a r j) by (intros j Hj; unfold l; apply nth_map_seq; exact Hj).
  assert (Z : forall j, j < m -> (negb (feps T (nth j l f0) f0) = false <-> A r j = k0)).
  { intros j Hj. destruct (H r j Hr Hj) as [W D]. rewrite Nl by exact Hj. rewrite negb_false_iff, (eps0 _ _ TS) by exact W.
    rewrite D. reflexivity. }
  destruct (position (fun x => negb (feps T x f0)) l) as [c|] eqn:E.
  - apply position_Some in E. destruct E as (l1 & x & l2 & E & L1 & Px & F1).
    assert (Hc : c < m) by (rewrite <- Ll, E, app_length; simpl; lia).
    split; [exact Hc|split].
    + intros D. apply Z in D; [|exact Hc]. rewrite E in D. rewrite app_nth2, L1, Nat.sub_diag in D by lia.
      simpl in D. congruence.
    + intros j Hj. apply Z; [lia|]. rewrite E, app_nth1 by lia. rewrite Forall_forall in F1.
      apply F1. apply nth_In. lia.
  - apply position_None in E. intros j Hj. apply Z; [exact Hj|]. rewrite Forall_forall in E.
    apply E. apply nth_In. lia.
Qed.

(** ** Echelon bookkeeping *)
Lemma ech_ext n c r piv (B B' : fmat) : meq n c B B' -> ech n c r piv B -> ech n c r piv B'.
Proof.
  intros H [e1 e2 e3 e4 e5 e6]. split; try assumption.
  - intros i Hi. rewrite <- H by (try apply e2; lia). apply e3. exact Hi.
  - intros i j Hi Hj. pose proof (e2 i Hi). rewrite <- H by lia. apply e4; assumption.
  - intros i j Hi Hn Hj. rewrite <- H by assumption. apply e6; assumption.
Qed.
Lemma ech_swap n c r piv (B : fmat) s t : r <= s -> s < n -> r <= t -> t < n ->
  ech n c r piv B -> ech n c r piv (op_swap s t B).
Proof.
  intros Hs Hsn Ht Htn [e1 e2 e3 e4 e5 e6]. split; try assumption; unfold op_swap.
  - intros i Hi. eqb. apply e3; exact Hi.
  - intros i j Hi Hj. eqb. apply e4; assumption.
  - intros i j Hi Hn Hj. eqb; apply e6; assumption.
Qed.
Lemma ech_scale n c r piv (B : fmat) i x : r <= i -> ech n c r piv B -> ech n c r piv (op_scale i x B).
Proof.
  intros Hr [e1 e2 e3 e4 e5 e6]. split; try assumption; unfold op_scale.
  - intros k Hk. eqb. apply e3; exact Hk.
  - intros k j Hk Hj. eqb. apply e4; assumption.
  - intros k j Hk Hn Hj. eqb; rewrite e6 by assumption; ring.
Qed.
Lemma ech_skip n c r piv (B : fmat) : ech n c r piv B -> (forall i, r <= i -> i < n -> B i c = k0) ->
  ech n (c + 1) r piv B.
Proof.
  intros [e1 e2 e3 e4 e5 e6] H. split; try assumption.
  - intros i Hi. specialize (e2 i Hi). lia.
  - intros i j Hi Hn Hj. destruct (Nat.eq_dec j c) as [->|N]; [apply H; assumption|apply e6; lia].
Qed.
Lemma ech_full n c c' piv (B : fmat) : c <= c' -> ech n c n piv B -> ech n c' n piv B.
Proof.
  intros L [e1 e2 e3 e4 e5 e6]. split; try assumption.
  - intros i Hi. specialize (e2 i Hi). lia.
  - intros; lia.
Qed.

(** clearing column [c] in rows [lo..hi) with row [r] *)
Definition elim (r c lo hi : nat) (B : fmat) : fmat :=
  fun i j => if (lo <=? i) && (i <? hi) then ksub (B i j) (kmul (B i c) (B r j)) else B i j.

Lemma ech_elim n c r piv (B : fmat) : r < n -> ech n c r piv B -> B r c = k1 ->
  ech n (c + 1) (r + 1) (fun i => if i =? r then c else piv i) (elim r c (r + 1) n B).
Proof.
  intros Hr [e1 e2 e3 e4 e5 e6] H1. split; unfold elim.
  - lia.
  - intros i Hi. eqb. specialize (e2 i ltac:(lia)). lia.
  - intros i Hi. eqb. apply e3; lia.
  - intros i j Hi Hj. destruct (Nat.eqb_spec i r) as [->|N].
    + eqb. apply e6; lia.
    + eqb. apply e4; lia.
  - intros i k Hi Hk. eqb. + apply e2; lia. + apply e5; lia.
  - intros i j Hi Hn Hj. destruct (Nat.eq_dec j c) as [->|N].
    + eqb. rewrite H1. ring.
    + eqb. rewrite (e6 i j), (e6 r j) by lia. ring.
Qed.

(** ** Row equivalent forms *)
(** [form_ok n m A s B]: s.b stands for B, s.p is invertible and s.p * A = B *)
Definition form_ok (n m : nat) (A : fmat) (s : form) (B : fmat) : Prop :=
  mrep (fb s) n m B /\
  exists P, mrep (fp s) n n P /\ invertible n P /\ meq n m (mmul n P A) B.

Lemma form_ok_ext n m A s B B' : form_ok n m A s B -> meq n m B B' -> form_ok n m A s B'.
Proof.
  intros (R & P & RP & I & E) H. split; [eapply mrep_ext; eassumption|].
  exists P. split; [exact RP|split; [exact I|]]. eapply meq_trans; eassumption.
Qed.
Lemma form_permute_ok n m A s B r1 r2 : form_ok n m A s B -> r1 < n -> r2 < n ->
  exists s', form_permute_rows s r1 r2 = Ok s' /\ form_ok n m A s' (op_swap r1 r2 B).
Proof.
  intros (R & P & RP & I & E) H1 H2. unfold form_permute_rows.
  destruct (permute_rows_ok FS _ _ _ _ r1 r2 RP H1 H2) as (p' & -> & RP').
  destruct (permute_rows_ok FS _ _ _ _ r1 r2 R H1 H2) as (b' & -> & R'). cbn [bind].
  eexists. split; [reflexivity|]. split; [exact R'|]. exists (op_swap r1 r2 P). split; [exact RP'|]. split.
  - apply invertible_swap; assumption.
  - apply rowop_both; [apply rowop_swap; assumption|exact E].
Qed.
Lemma form_scale_ok n m A s B r x : form_ok n m A s B -> r < n -> wf x -> dn x <> k0 ->
  safe (form_scale_row s r x) (fun s' => form_ok n m A s' (op_scale r (dn x) B)).
Proof.
  intros (R & P & RP & I & E) Hr W Nx. unfold form_scale_row.
  eapply safe_bind; [eapply scale_row_ok; eassumption|]. intros p' RP'.
  eapply safe_bind; [eapply scale_row_ok; eassumption|]. intros b' R'. apply safe_Ok.
  split; [exact R'|]. exists (op_scale r (dn x) P). split; [exact RP'|]. split.
  - apply invertible_scale; assumption.
  - apply rowop_both; [apply rowop_scale|exact E].
Qed.
Lemma form_replace_ok n m A s B r c lo len : form_ok n m A s B -> r < n -> c < m -> lo + len <= n ->
  (r < lo \/ lo + len <= r) ->
  safe (form_replace s r c (seq lo len)) (fun s' => form_ok n m A s' (elim r c lo (lo + len) B)).
Proof.
  intros FO Hr Hc Hn Hrl. unfold form_replace.
  apply (foldM_seq_safe _ (fun k s' => form_ok n m A s' (elim r c lo (lo + k) B))).
  - eapply form_ok_ext; [exact FO|]. intros i j _ _. unfold elim. eqb.
  - intros k s' Hk (R & P & RP & I & E).
    assert (Hr2 : lo + k < n) by lia.
    eapply mrep_get_safe; [exact R|exact Hr2|exact Hc|]. intros x Wx Dx.
    eapply safe_bind; [apply (sub_ok _ _ FS); [apply FS|exact Wx]|]. intros nx [Wn Dn].
    eapply safe_bind; [eapply replace_row_ok; [exact RP|exact Hr|exact Hr2|exact Wn]|]. intros p' RP'.
    eapply safe_bind; [apply (sub_ok _ _ FS); [apply FS|exact Wx]|]. intros nx' [Wn' Dn'].
    eapply safe_bind; [eapply replace_row_ok; [exact R|exact Hr|exact Hr2|exact Wn']|]. intros b' R'.
    apply safe_Ok.
    assert (ED : dn nx = dn nx') by congruence.
    assert (EX : meq n m (op_repl r (lo + k) (dn nx') (elim r c lo (lo + k) B)) (elim r c lo (lo + (k + 1)) B)).
    { intros i j Hi Hj. rewrite Dn', (den0 _ _ FS), Dx. unfold op_repl, elim. eqb; ring. }
    split; [eapply mrep_ext; [exact R'|exact EX]|].
    exists (op_repl r (lo + k) (dn nx) P). split; [exact RP'|]. split.
    + apply invertible_repl; [exact Hr|lia|exact I].
    + eapply meq_trans; [|exact EX]. rewrite ED. apply rowop_both; [apply rowop_repl; exact Hr|exact E].
Qed.

(** [ech_state]: invariant of the loop over columns *)
Definition ech_state (n m : nat) (A : fmat) (c : nat) (s : nat * form) : Prop :=
  exists B piv, form_ok n m A (snd s) B /\ ech n c (fst s) piv B.

Lemma ech_step_ok n m A c s : c < m -> ech_state n m A c s ->
  safe (ech_step T n s c) (ech_state n m A (c + 1)).
Proof.
  intros Hc (B & piv & FO & E). destruct s as [r f]. cbn [fst snd] in *. unfold ech_step.
  destruct (Nat.leb_spec n r) as [L|L].
  { apply safe_Ok. exists B, piv. cbn [fst snd]. split; [exact FO|].
    assert (r = n) by (pose proof (ech_le _ _ _ _ _ E); lia). subst. eapply ech_full; [|exact E]. lia. }
  eapply safe_bind; [eapply stable_column_index_ok; [apply FO|exact Hc|exact L]|].
  intros [[si x]|] Ho.
  2:{ apply safe_Ok. exists B, piv. cbn [fst snd]. split; [exact FO|]. apply ech_skip; assumption. }
  destruct Ho as (H1 & H2 & Wx & Dx & Nx).
  destruct (form_permute_ok _ _ _ _ _ r si FO L H2) as (g1 & -> & F1). cbn [bind].
  eapply safe_bind; [apply (div_ok _ _ FS); [apply FS|exact Wx|exact Nx]|]. intros i [Wi Di].
  rewrite (den1 _ _ FS) in Di.
  assert (Ni : dn i <> k0).
  { rewrite Di. intros Z. apply (F_1_neq_0 (kth K)). transitivity (kmul (kdiv k1 (dn x)) (dn x)); [field; exact Nx|].
    rewrite Z. ring. }
  eapply safe_bind; [eapply form_scale_ok; [exact F1|exact L|exact Wi|exact Ni]|]. intros g2 F2.
  set (B2 := op_scale r (dn i) (op_swap r si B)) in *.
  assert (E2 : ech n c r piv B2).
  { apply ech_scale; [lia|]. apply ech_swap; try lia. exact E. }
  assert (P2 : B2 r c = k1).
  { unfold B2, op_scale, op_swap. rewrite !Nat.eqb_refl. rewrite Di, <- Dx. field. exact Nx. }
  unfold form_replace_under.
  assert (RB : mrows (fb g2) = n) by (destruct F2 as [(_ & R & _) _]; exact R).
  rewrite RB.
  eapply safe_bind; [eapply (form_replace_ok n m A g2 B2 r c (r + 1) (n - (r + 1))); [exact F2|exact L|exact Hc|lia|lia]|].
  intros g3 F3. apply safe_Ok. replace (r + 1 + (n - (r + 1))) with n in F3 by lia.
  eexists _, _. cbn [fst snd]. split; [exact F3|]. apply ech_elim; [exact L|exact E2|exact P2].
Qed.

Lemma row_echelon_ok a n m A : mrep a n m A ->
  safe (mat_row_echelon T a) (fun s => exists B r piv, form_ok n m A s B /\ ech n m r piv B).
Proof.
  intros R. pose proof R as (_ & Ra & Ca & _). unfold mat_row_echelon. rewrite Ra, Ca.
  eapply safe_bind.
  - apply (foldM_seq_safe _ (fun k s => ech_state n m A k s)).
    + exists A, (fun _ => 0). cbn [fst snd]. split.
      * split; [exact R|]. exists mid. split; [apply identity_ok|]. split; [apply invertible_id|apply mmul_id_l].
      * split; intros; lia.
    + intros k s Hk Hs. rewrite Nat.add_0_l. apply ech_step_ok; assumption.
  - intros [r s] (B & piv & FO & E). apply safe_Ok. exists B, r, piv. auto.
Qed.

(** ** Reduction *)
Lemma first_nonzero_ech b n m r piv B i : mrep b n m B -> ech n m r piv B -> i < n ->
  first_nonzero T b i = Ok (if i <? r then Some (piv i) else None).
Proof.
  intros R E Hi. destruct (first_nonzero_ok b n m B i R Hi) as (o & -> & Ho). f_equal.
  destruct (Nat.ltb_spec i r) as [L|L].
  - destruct o as [c|].
    + destruct Ho as (Hc & Nc & Zc). f_equal.
      destruct (Nat.lt_trichotomy c (piv i)) as [G|[G|G]]; [|exact G|].
      * exfalso. apply Nc. apply (ech_left _ _ _ _ _ E); assumption.
      * exfalso. specialize (Zc _ G). rewrite (ech_one _ _ _ _ _ E) in Zc by exact L. apply (F_1_neq_0 (kth K)). exact Zc.
    + exfalso. specialize (Ho (piv i) (ech_lt _ _ _ _ _ E i L)). rewrite (ech_one _ _ _ _ _ E) in Ho by exact L.
      apply (F_1_neq_0 (kth K)). exact Ho.
  - destruct o as [c|]; [|reflexivity]. destruct Ho as (Hc & Nc & _). exfalso. apply Nc.
    apply (ech_zero _ _ _ _ _ E); assumption.
Qed.

(** pivots of index at least [k] are cleared above *)
Definition cleared (r k : nat) (piv : nat -> nat) (B : fmat) : Prop :=
  forall q i, k <= q -> q < r -> i < q -> B i (piv q) = k0.

Lemma to_rref_ok n m A s B r piv : form_ok n m A s B -> ech n m r piv B ->
  safe (form_to_rref T s) (fun s' => exists B', form_ok n m A s' B' /\ rref n m r piv B').
Proof.
  intros FO E. unfold form_to_rref.
  assert (RB : mrows (fb s) = n) by (destruct FO as [(_ & R & _) _]; exact R). rewrite RB.
  (* rows are processed from the last one; generalise over the number still to do *)
  assert (G : forall k s B, k < n \/ k = 0 -> form_ok n m A s B -> ech n m r piv B -> cleared r (k + 1) piv B ->
    safe (foldM (fun s r => o <- first_nonzero T (fb s) r ;;
              match o with Some c => form_replace_above s r c | None => Ok s end) (rev (seq 1 k)) s)
      (fun s' => exists B', form_ok n m A s' B' /\ rref n m r piv B')).
  { induction k; intros s0 B0 Hk F0 E0 C0.
    - simpl. exists B0. split; [exact F0|]. split; [exact E0|]. intros i q Hi Hq. apply C0; lia.
    - rewrite seq_S, rev_app_distr. cbn [rev app foldM]. change (1 + k) with (S k).
      assert (Hkn : S k < n) by lia.
      rewrite (first_nonzero_ech _ _ _ _ _ _ (S k) (proj1 F0) E0 Hkn). cbn [bind].
      destruct (Nat.ltb_spec (S k) r) as [L|L].
      + unfold form_replace_above.
        assert (Hp : piv (S k) < m) by (apply (ech_lt _ _ _ _ _ E0); exact L).
        eapply safe_bind; [eapply (form_replace_ok n m A s0 B0 (S k) (piv (S k)) 0 (S k)); [exact F0|exact Hkn|exact Hp|lia|lia]|].
        intros s1 F1. rewrite Nat.add_0_l in F1. apply (IHk s1 (elim (S k) (piv (S k)) 0 (S k) B0)); [lia|exact F1| |].
        * destruct E0 as [e1 e2 e3 e4 e5 e6]. split; try assumption; unfold elim.
          { intros i Hi. eqb; [|apply e3; exact Hi]. rewrite (e4 (S k) (piv i)); [rewrite e3 by exact Hi; ring|exact L|].
            apply e5; assumption. }
          { intros i j Hi Hj. eqb; [|apply e4; assumption]. pose proof (e5 i (S k) ltac:(lia) L).
            rewrite (e4 i j), (e4 (S k) j) by lia. ring. }
          { intros i j Hi Hn Hj. eqb. apply e6; assumption. }
        * intros q i Hq Hqr Hi. unfold elim. destruct (Nat.eq_dec q (S k)) as [->|Nq].
          { eqb. rewrite (ech_one _ _ _ _ _ E0) by exact L. ring. }
          { assert (Z1 : B0 i (piv q) = k0) by (apply C0; lia).
            assert (Z2 : B0 (S k) (piv q) = k0) by (apply C0; lia).
            rewrite Z1, Z2. eqb; ring. }
      + cbn [bind]. apply (IHk s0 B0); [lia|exact F0|exact E0|]. intros q i Hq Hqr Hi. apply C0; lia. }
  apply (G (n - 1) s B); [lia|exact FO|exact E|].
  intros q i Hq Hqr Hi. pose proof (ech_le _ _ _ _ _ E). lia.
Qed.

(** ** rank, nullity *)
Lemma zero_rows_ok b n m r piv B : mrep b n m B -> ech n m r piv B -> zero_rows T b = Ok (n - r).
Proof.
  intros R E. pose proof R as (_ & Ra & _). unfold zero_rows. rewrite Ra.
  assert (G : forall k, k <= n ->
     foldM (fun k r => o <- first_nonzero T b r ;; Ok (match o with None => k + 1 | Some _ => k end)) (seq 0 k) 0
     = Ok (k - r)).
  { induction k; intros Hk; [reflexivity|]. rewrite seq_S, foldM_app, IHk by lia. cbn [bind foldM].
    rewrite Nat.add_0_l. rewrite (first_nonzero_ech _ _ _ _ _ _ k R E) by lia. cbn [bind].
    destruct (Nat.ltb_spec k r); f_equal; lia. }
  apply G. lia.
Qed.
Lemma form_rank_ok n m A s B r piv : form_ok n m A s B -> ech n m r piv B -> form_rank T s = Ok r.
Proof.
  intros [R _] E. unfold form_rank. rewrite (zero_rows_ok _ _ _ _ _ _ R E). cbn [bind].
  destruct R as (_ & Ra & _). rewrite Ra. pose proof (ech_le _ _ _ _ _ E).
  destruct (Nat.leb_spec (n - r) n); [|lia]. f_equal. lia.
Qed.
Lemma ech_le_cols n m r piv (B : fmat) : ech n m r piv B -> r <= m.
Proof.
  intros E. assert (G : forall i, i < r -> i <= piv i).
  { induction i; intros Hi; [lia|]. pose proof (ech_inc _ _ _ _ _ E i (S i) ltac:(lia) Hi). specialize (IHi ltac:(lia)). lia. }
  destruct r as [|r]; [lia|]. pose proof (G r ltac:(lia)). pose proof (ech_lt _ _ _ _ _ E r ltac:(lia)). lia.
Qed.
Lemma form_nullity_ok n m A s B r piv : form_ok n m A s B -> ech n m r piv B -> form_nullity T s = Ok (m - r).
Proof.
  intros FO E. unfold form_nullity. rewrite (form_rank_ok _ _ _ _ _ _ _ FO E). cbn [bind].
  destruct FO as [(_ & _ & Ca & _) _]. rewrite Ca. pose proof (ech_le_cols _ _ _ _ _ E).
  destruct (Nat.leb_spec r m); [reflexivity|lia].
Qed.

(** ** kernel and range *)
Lemma bound_variables_ok b n m r piv B : mrep b n m B -> ech n m r piv B ->
  bound_variables T b = Ok (map piv (seq 0 r)).
Proof.
  intros R E. pose proof R as (_ & Ra & _). unfold bound_variables. rewrite Ra.
  rewrite (mapM_Ok_intro _ (fun i => if i <? r then Some (piv i) else None)).
  2:{ intros i Hi. apply in_seq in Hi. apply (first_nonzero_ech _ _ _ _ _ _ i R E). lia. }
  cbn [bind]. f_equal. pose proof (ech_le _ _ _ _ _ E).
  replace n with (r + (n - r)) by lia. rewrite seq_app, map_app, flat_map_app.
  assert (G1 : forall s k, s + k <= r -> flat_map (fun o => match o with Some c => [c] | None => [] end)
      (map (fun i => if i <? r then Some (piv i) else None) (seq s k)) = map piv (seq s k)).
  { intros s k; revert s. induction k; intros s Hs; simpl; [reflexivity|].
    destruct (Nat.ltb_spec s r); [|lia]. simpl. f_equal. apply IHk. lia. }
  assert (G2 : forall s k, r <= s -> flat_map (fun o => match o with Some c => [c] | None => [] end)
      (map (fun i => if i <? r then Some (piv i) else None) (seq s k)) = []).
  { intros s k; revert s. induction k; intros s Hs; simpl; [reflexivity|].
    destruct (Nat.ltb_spec s r); [lia|]. simpl. apply IHk. lia. }
  rewrite G1, G2 by lia. apply app_nil_r.
Qed.
Lemma bound_is_piv r piv c : existsb (Nat.eqb c) (map piv (seq 0 r)) = is_piv r piv c.
Proof.
  unfold is_piv. generalize (seq 0 r). induction l as [|x l IH]; simpl; [reflexivity|].
  rewrite IH, Nat.eqb_sym. reflexivity.
Qed.

Lemma kernel_vector_ok b n m r piv B c : mrep b n m B -> rref n m r piv B -> c < m -> is_piv r piv c = false ->
  safe (kernel_vector T b c) (fun v => mrep v m 1 (fun j _ => ker_vec r piv B c j)).
Proof.
  intros R RR Hc Fc. pose proof (proj1 RR) as E. pose proof R as (_ & Ra & Ca & _). unfold kernel_vector. rewrite Ra, Ca.
  eapply safe_mono.
  - apply (foldM_seq_safe _ (fun k v => mrep v m 1 (fun j _ => if j =? c then k1 else
       match find (fun i => piv i =? j) (seq 0 r) with
       | Some i => if (i <? k) && (piv i <? c) then kopp (B i c) else k0
       | None => k0 end))).
    + eapply mrep_ext; [apply e_ok|]. intros j q _ _. destruct (j =? c); [reflexivity|].
      destruct (find _ _); reflexivity.
    + intros k v Hk Rv. rewrite Nat.add_0_l. rewrite (first_nonzero_ech _ _ _ _ _ _ k R E Hk). cbn [bind].
      destruct (Nat.ltb_spec k r) as [L|L].
      * destruct (Nat.ltb_spec (piv k) c) as [Lc|Lc].
        { eapply mrep_get_safe; [exact R|exact Hk|exact Hc|]. intros x Wx Dx.
          eapply safe_bind; [apply (sub_ok _ _ FS); [apply FS|exact Wx]|]. intros y [Wy Dy].
          eapply mrep_set_safe; [exact Rv|lia|lia|exact Wy|]. intros v' Rv'.
          eapply mrep_ext; [exact Rv'|]. intros j q Hj Hq. cbv beta. assert (q = 0) by lia; subst q.
          rewrite Nat.eqb_refl, andb_true_r. destruct (Nat.eqb_spec j (piv k)) as [->|N].
          - destruct (Nat.eqb_spec (piv k) c); [lia|].
            rewrite (find_piv _ _ _ _ _ _ E L).
            destruct (Nat.ltb_spec k (k + 1)); [|lia]. destruct (Nat.ltb_spec (piv k) c); [|lia]. cbn [andb].
            rewrite Dy, (den0 _ _ FS), Dx. ring.
          - destruct (j =? c); [reflexivity|].
            destruct (find (fun i => piv i =? j) (seq 0 r)) as [i|] eqn:Fi; [|reflexivity].
            apply find_some in Fi. destruct Fi as [_ Fi]. apply Nat.eqb_eq in Fi.
            assert (i <> k) by congruence. eqb. }
        { apply safe_Ok. eapply mrep_ext; [exact Rv|]. intros j q Hj Hq. cbv beta.
          destruct (j =? c); [reflexivity|].
          destruct (find (fun i => piv i =? j) (seq 0 r)) as [i|] eqn:Fi; [|reflexivity].
          destruct (Nat.eq_dec i k) as [->|Ni]; [|eqb].
          destruct (Nat.ltb_spec (piv k) c); [lia|]. rewrite !andb_false_r. reflexivity. }
      * apply safe_Ok. eapply mrep_ext; [exact Rv|]. intros j q Hj Hq. cbv beta.
        destruct (j =? c); [reflexivity|].
        destruct (find (fun i => piv i =? j) (seq 0 r)) as [i|] eqn:Fi; [|reflexivity].
        apply find_some in Fi. destruct Fi as [Fi _]. apply in_seq in Fi. eqb.
  - intros v Rv. eapply mrep_ext; [exact Rv|]. intros j q Hj Hq. cbv beta. unfold ker_vec.
    destruct (j =? c); [reflexivity|].
    destruct (find (fun i => piv i =? j) (seq 0 r)) as [i|] eqn:Fi; [|reflexivity].
    apply find_some in Fi. destruct Fi as [Fi _]. apply in_seq in Fi.
    pose proof (ech_le _ _ _ _ _ E).
    destruct (Nat.ltb_spec i n); [|lia]. destruct (Nat.ltb_spec (piv i) c) as [L|L]; [reflexivity|]. cbn [andb].
    assert (piv i <> c) by (apply is_piv_false with r; [exact Fc|lia]).
    rewrite (ech_left _ _ _ _ _ E i c) by lia. ring.
Qed.

Lemma compute_kernel_ok n m A s B r piv : form_ok n m A s B -> rref n m r piv B ->
  safe (compute_kernel T s) (fun vs =>
    Forall2 (fun v w => mrep v m 1 (fun j _ => w j)) vs (ker_list m r piv B)).
Proof.
  intros [R _] RR. pose proof R as (_ & Ra & Ca & _). unfold compute_kernel.
  rewrite (bound_variables_ok _ _ _ _ _ _ R (proj1 RR)). cbn [bind]. rewrite Ca.
  assert (EF : filter (fun c => negb (existsb (Nat.eqb c) (map piv (seq 0 r)))) (seq 0 m) = free_list m r piv).
  { unfold free_list. apply filter_ext. intros c. rewrite bound_is_piv. reflexivity. }
  rewrite EF. eapply safe_mono.
  - apply (mapM_safe _ (fun c v => mrep v m 1 (fun j _ => ker_vec r piv B c j))).
    intros c Hc. apply in_free in Hc. destruct Hc as [Hc Fc]. eapply kernel_vector_ok; eassumption.
  - intros vs HF. unfold ker_list. clear - HF. induction HF; simpl; constructor; assumption.
Qed.

Lemma compute_range_ok a n m A order : mrep a n m A -> (forall c, In c order -> c < m) ->
  exists vs, compute_range a order = Ok vs /\
    Forall2 (fun v w => mrep v n 1 (fun j _ => w j)) vs (map (mcol A) order).
Proof.
  intros R H. unfold compute_range. induction order as [|c order IH]; simpl.
  - exists []. split; [reflexivity|constructor].
  - destruct (get_col_ok FS _ _ _ _ c R (H c (or_introl eq_refl))) as (v & -> & Rv). cbn [bind].
    destruct IH as (vs & -> & HF); [intros; apply H; right; assumption|].
    exists (v :: vs). split; [reflexivity|]. constructor; [exact Rv|exact HF].
Qed.

(** ** LU *)
Lemma mat_swap_ok a n m A p q : mrep a n m A -> fst p < n -> snd p < m -> fst q < n -> snd q < m ->
  exists a', mat_swap a p q = Ok a' /\
    mrep a' n m (fun i j => if (i =? fst q) && (j =? snd q) then A (fst p) (snd p)
                            else if (i =? fst p) && (j =? snd p) then A (fst q) (snd q) else A i j).
Proof.
  intros R Hp1 Hp2 Hq1 Hq2. unfold mat_swap.
  destruct (mrep_get FS _ _ _ _ _ _ R Hp1 Hp2) as (x & -> & Wx & Dx & _).
  destruct (mrep_get FS _ _ _ _ _ _ R Hq1 Hq2) as (y & -> & Wy & Dy & _). cbn [bind].
  destruct (mrep_set FS _ _ _ _ _ _ y R Hp1 Hp2 Wy) as (a2 & -> & R2). cbn [bind].
  destruct (mrep_set FS _ _ _ _ _ _ x R2 Hq1 Hq2 Wx) as (a3 & -> & R3).
  exists a3. split; [reflexivity|]. eapply mrep_ext; [exact R3|]. intros i j _ _. rewrite Dx, Dy. reflexivity.
Qed.
Lemma permute_under_diagonal_ok a n A s t : mrep a n n A -> s < n -> t < n ->
  exists a', permute_under_diagonal a s t = Ok a' /\
    mrep a' n n (fun i j => if j <? s then op_swap s t A i j else A i j).
Proof.
  intros R Hs Ht. unfold permute_under_diagonal.
  assert (G : forall k, k <= s -> exists a', foldM (fun a c => mat_swap a (s, c) (t, c)) (seq 0 k) a = Ok a' /\
    mrep a' n n (fun i j => if j <? k then op_swap s t A i j else A i j)).
  { induction k; intros Hk.
    - exists a. split; [reflexivity|]. eapply mrep_ext; [exact R|]. intros i j _ _. reflexivity.
    - destruct IHk as (a1 & E1 & R1); [lia|]. rewrite seq_S, foldM_app, E1. cbn [bind foldM]. rewrite Nat.add_0_l.
      destruct (mat_swap_ok a1 n n _ (s, k) (t, k) R1) as (a2 & -> & R2); cbn [fst snd]; try lia.
      cbn [bind]. exists a2. split; [reflexivity|]. eapply mrep_ext; [exact R2|]. intros i j Hi Hj.
      cbn [fst snd]. rewrite Nat.ltb_irrefl. unfold op_swap. eqb. }
  apply (G s). lia.
Qed.

Lemma list_swap_ok (p : list nat) i j : i < length p -> j < length p ->
  exists p', list_swap p i j = Ok p' /\ length p' = length p /\
    (forall k, nth k p' 0 = nth (if k =? i then j else if k =? j then i else k) p 0).
Proof.
  intros Hi Hj. unfold list_swap.
  rewrite (vget_Ok p i 0), (vget_Ok p j 0) by assumption. cbn [bind].
  rewrite vset_Ok by assumption. cbn [bind]. rewrite vset_Ok by (rewrite list_set_length; assumption).
  eexists. split; [reflexivity|]. rewrite !list_set_length. split; [reflexivity|].
  intros k. rewrite nth_list_set by (rewrite list_set_length; assumption).
  rewrite nth_list_set by assumption. rewrite (Nat.eqb_sym j k), (Nat.eqb_sym i k). eqb.
Qed.

(** [p] lists 0..n-1 in some order *)
Definition is_perm (n : nat) (p : list nat) : Prop :=
  length p = n /\ (forall i, i < n -> nth i p 0 < n) /\
  (forall i j, i < n -> j < n -> nth i p 0 = nth j p 0 -> i = j).

Lemma is_perm_swap n p p' i j : is_perm n p -> i < n -> j < n -> length p' = length p ->
  (forall k, nth k p' 0 = nth (if k =? i then j else if k =? j then i else k) p 0) -> is_perm n p'.
Proof.
  intros (L & B & I) Hi Hj L' H. split; [congruence|]. split.
  - intros k Hk. rewrite H. apply B. eqb.
  - intros k q Hk Hq E. rewrite !H in E. apply I in E; [|eqb|eqb].
    revert E. eqb.
Qed.

Record lu_inv (n m : nat) (A : fmat) (c r : nat) (s : lu_state) (L U : fmat) (piv : nat -> nat) : Prop := {
  li_perm : is_perm n (lu_p s);
  li_l : mrep (lu_l s) n n L;
  li_u : mrep (lu_u s) n m U;
  li_ech : ech n c r piv U;
  li_low : forall i k, i < k -> k < n -> L i k = k0;
  li_diag : forall i, i < n -> L i i <> k0;
  li_id : forall i k, i < n -> k < n -> r <= k -> L i k = mid i k;
  li_prod : forall i j, i < n -> j < m ->
    A (nth i (lu_p s) 0) j = kadd (sumn r (fun k => kmul (L i k) (U k j))) (if r <=? i then U i j else k0)
}.

Lemma lu_replace_ok n m s L U r c : mrep (lu_l s) n n L -> mrep (lu_u s) n m U -> r < n -> c < m ->
  safe (lu_replace_col_under_row s r c) (fun s' => lu_p s' = lu_p s /\
    mrep (lu_u s') n m (elim r c (r + 1) n U) /\
    mrep (lu_l s') n n (fun i k => if (k =? r) && (r <? i) then U i c else L i k)).
Proof.
  intros RL RU Hr Hc. unfold lu_replace_col_under_row.
  assert (Ru : mrows (lu_u s) = n) by (destruct RU as (_ & H & _); exact H). rewrite Ru.
  eapply safe_mono.
  - apply (foldM_seq_safe _ (fun q s' => lu_p s' = lu_p s /\
      mrep (lu_u s') n m (elim r c (r + 1) (r + 1 + q) U) /\
      mrep (lu_l s') n n (fun i k => if (k =? r) && (r <? i) && (i <? r + 1 + q) then U i c else L i k))).
    + split; [reflexivity|]. split.
      * eapply mrep_ext; [exact RU|]. intros i j _ _. unfold elim. eqb.
      * eapply mrep_ext; [exact RL|]. intros i j _ _. eqb.
    + intros q s' Hq (Ep & RU' & RL').
      assert (H2 : r + 1 + q < n) by lia.
      eapply mrep_get_safe; [exact RU'|exact H2|exact Hc|]. intros x Wx Dx.
      assert (Dx' : dn x = U (r + 1 + q) c).
      { rewrite Dx. unfold elim. eqb. }
      eapply safe_bind; [apply (sub_ok _ _ FS); [apply FS|exact Wx]|]. intros nx [Wn Dn].
      eapply safe_bind; [eapply replace_row_ok; [exact RU'|exact Hr|exact H2|exact Wn]|]. intros u' Ru'.
      destruct (mrep_set FS _ _ _ _ (r + 1 + q) r x RL' H2 Hr Wx) as (l' & -> & Rl'). cbn [bind].
      apply safe_Ok. cbn [lu_p lu_l lu_u]. split; [exact Ep|]. split.
      * eapply mrep_ext; [exact Ru'|]. intros i j Hi Hj. rewrite Dn, (den0 _ _ FS), Dx'. unfold op_repl, elim. eqb; ring.
      * eapply mrep_ext; [exact Rl'|]. intros i k Hi Hk. rewrite Dx'. eqb.
  - intros s' (Ep & RU' & RL'). replace (r + 1 + (n - (r + 1))) with n in * by lia.
    split; [exact Ep|]. split; [exact RU'|].
    eapply mrep_ext; [exact RL'|]. intros i k Hi Hk. eqb.
Qed.

Lemma lu_step_ok n m A c r s L U piv : c < m -> lu_inv n m A c r s L U piv ->
  safe (lu_step T n (r, s) c) (fun s' => exists L' U' piv', lu_inv n m A (c + 1) (fst s') (snd s') L' U' piv').
Proof.
  intros Hc [ip il iu ie ilow idg iid ipr]. unfold lu_step.
  destruct (Nat.leb_spec n r) as [Lr|Lr].
  { apply safe_Ok. exists L, U, piv. cbn [fst snd].
    assert (r = n) by (pose proof (ech_le _ _ _ _ _ ie); lia). subst.
    split; try assumption. eapply ech_full; [|exact ie]. lia. }
  eapply safe_bind; [eapply stable_column_index_ok; [exact iu|exact Hc|exact Lr]|].
  intros [[si x]|] Ho.
  2:{ apply safe_Ok. exists L, U, piv. cbn [fst snd]. split; try assumption. apply ech_skip; assumption. }
  destruct Ho as (H1 & H2 & Wx & Dx & Nx).
  pose proof ip as (ipl & ipb & ipi).
  unfold lu_permute.
  destruct (list_swap_ok (lu_p s) r si) as (p' & -> & Lp & Hp); [lia|lia|].
  destruct (permute_rows_ok FS _ _ _ _ r si iu Lr H2) as (u1 & -> & Ru1).
  destruct (permute_under_diagonal_ok _ _ _ r si il Lr H2) as (l1 & -> & Rl1). cbn [bind].
  set (L1 := fun i j => if j <? r then op_swap r si L i j else L i j) in *.
  set (U1 := op_swap r si U) in *.
  assert (ip' : is_perm n p') by exact (is_perm_swap n (lu_p s) p' r si ip Lr H2 Lp Hp).
  assert (E1 : ech n c r piv U1) by (apply ech_swap; try lia; exact ie).
  assert (low1 : forall i k, i < k -> k < n -> L1 i k = k0).
  { intros i k Hi Hk. unfold L1, op_swap. eqb; apply ilow; lia. }
  assert (id1 : forall i k, i < n -> k < n -> r <= k -> L1 i k = mid i k).
  { intros i k Hi Hk G. unfold L1. eqb. apply iid; assumption. }
  assert (dg1 : forall i, i < n -> L1 i i <> k0).
  { intros i Hi. unfold L1, op_swap. eqb; apply idg; lia. }
  assert (pr1 : forall i j, i < n -> j < m ->
    A (nth i p' 0) j = kadd (sumn r (fun k => kmul (L1 i k) (U1 k j))) (if r <=? i then U1 i j else k0)).
  { intros i j Hi Hj. rewrite Hp.
    set (i' := if i =? r then si else if i =? si then r else i).
    assert (Hi' : i' < n) by (unfold i'; eqb).
    rewrite ipr by assumption. f_equal.
    - apply sumn_ext. intros k Hk. unfold L1, U1, op_swap. fold i'.
      destruct (Nat.ltb_spec k r); [|lia]. destruct (Nat.eqb_spec k r); [lia|]. destruct (Nat.eqb_spec k si); [lia|]. reflexivity.
    - unfold U1, op_swap. fold i'.
      assert (G : (r <=? i') = (r <=? i)) by (unfold i'; eqb). rewrite G. reflexivity. }
  clearbody L1. unfold lu_scale_row. cbn [lu_p lu_l lu_u].
  destruct (mrep_set FS _ _ _ _ r r x Rl1 Lr Lr Wx) as (l2 & -> & Rl2). cbn [bind].
  rewrite bind_assoc.
  eapply safe_bind; [apply (div_ok _ _ FS); [apply FS|exact Wx|exact Nx]|]. intros v [Wv Dv].
  rewrite (den1 _ _ FS) in Dv. rewrite bind_assoc.
  eapply safe_bind; [eapply scale_row_ok; [exact Ru1|exact Lr|exact Wv]|]. intros u2 Ru2. cbn [bind].
  set (U2 := op_scale r (dn v) U1) in *.
  set (L2 := fun i j => if (i =? r) && (j =? r) then dn x else L1 i j) in *.
  assert (E2 : ech n c r piv U2) by (apply ech_scale; [lia|exact E1]).
  assert (P2 : U2 r c = k1).
  { unfold U2, U1, op_scale, op_swap. rewrite !Nat.eqb_refl. rewrite Dv, <- Dx. field. exact Nx. }
  eapply safe_bind; [apply (lu_replace_ok n m (mklu p' l2 u2) L2 U2 r c Rl2 Ru2 Lr Hc)|].
  intros s3 (Ep & Ru3 & Rl3). cbn [lu_p] in Ep. apply safe_Ok. cbn [fst snd].
  set (U3 := elim r c (r + 1) n U2) in *.
  set (L3 := fun i k => if (k =? r) && (r <? i) then U2 i c else L2 i k) in *.
  exists L3, U3, (fun i => if i =? r then c else piv i).
  split.
  - rewrite Ep. exact ip'.
  - exact Rl3.
  - exact Ru3.
  - apply ech_elim; [exact Lr|exact E2|exact P2].
  - intros i k Hi Hk. unfold L3, L2. eqb; apply low1; lia.
  - intros i Hi. unfold L3, L2. eqb; apply dg1; exact Hi.
  - intros i k Hi Hk G. unfold L3, L2. destruct (Nat.eqb_spec k r); [lia|]. rewrite andb_false_r. cbn [andb].
    apply id1; lia.
  - intros i j Hi Hj. rewrite Ep, pr1 by assumption. rewrite Nat.add_1_r. cbn [sumn].
    assert (ES : sumn r (fun k => kmul (L1 i k) (U1 k j)) = sumn r (fun k => kmul (L3 i k) (U3 k j))).
    { apply sumn_ext. intros k Hk. f_equal.
      - unfold L3, L2. eqb.
      - unfold U3, elim, U2, op_scale. eqb. }
    rewrite ES.
    assert (HU : U3 r j = kmul (dn v) (U1 r j)).
    { unfold U3, elim, U2, op_scale. eqb. }
    assert (Hxv : kmul (dn x) (dn v) = k1) by (rewrite Dv; field; exact Nx).
    destruct (Nat.lt_trichotomy i r) as [Hir|[->|Hir]].
    + (* above: no change *)
      assert (Z : L3 i r = k0).
      { unfold L3, L2. eqb; apply low1; lia. }
      rewrite Z. destruct (Nat.leb_spec r i); [lia|]. destruct (Nat.leb_spec (S r) i); [lia|]. ring.
    + assert (Z : L3 r r = dn x) by (unfold L3, L2; eqb).
      rewrite Z, HU. destruct (Nat.leb_spec r r); [|lia]. destruct (Nat.leb_spec (S r) r); [lia|].
      transitivity (kadd (sumn r (fun k => kmul (L3 r k) (U3 k j))) (kmul (kmul (dn x) (dn v)) (U1 r j))).
      * rewrite Hxv. ring.
      * ring.
    + assert (Z : L3 i r = U1 i c).
      { unfold L3, L2, U2, op_scale. eqb. }
      assert (Z3 : U3 i j = ksub (U1 i j) (kmul (U1 i c) (kmul (dn v) (U1 r j)))).
      { unfold U3, elim, U2, op_scale. eqb. }
      rewrite Z, Z3, HU. destruct (Nat.leb_spec r i); [|lia]. destruct (Nat.leb_spec (S r) i); [|lia]. ring.
Qed.

(** the matrix permutation_from_vec(p) *)
Definition perm_mat (p : list nat) : fmat := fun i j => if nth i p 0 =? j then k1 else k0.

Lemma perm_mat_mul n p A i j : is_perm n p -> i < n -> mmul n (perm_mat p) A i j = A (nth i p 0) j.
Proof.
  intros (_ & B & _) Hi. unfold mmul, perm_mat. rewrite (sumn_delta n (nth i p 0)).
  - rewrite Nat.eqb_refl. ring.
  - apply B. exact Hi.
  - intros k _ N. destruct (Nat.eqb_spec (nth i p 0) k); [congruence|ring].
Qed.

Lemma lu_ok a n m A : mrep a n m A ->
  safe (mat_lu T a) (fun res => let '(p, l, u) := res in
    exists pv L U r piv, is_perm n pv /\ mrep p n n (perm_mat pv) /\ mrep l n n L /\ mrep u n m U /\
      (forall i k, i < k -> k < n -> L i k = k0) /\ (forall i, i < n -> L i i <> k0) /\
      ech n m r piv U /\
      meq n m (mmul n (perm_mat pv) A) (mmul n L U)).
Proof.
  intros R. pose proof R as (_ & Ra & Ca & _). unfold mat_lu. rewrite Ra, Ca.
  eapply safe_bind.
  - apply (foldM_seq_safe _ (fun c s => exists L U piv, lu_inv n m A c (fst s) (snd s) L U piv)).
    + exists mid, A, (fun _ => 0). cbn [fst snd]. split; cbn [lu_p lu_l lu_u].
      * split; [apply seq_length|]. split.
        { intros i Hi. rewrite seq_nth by exact Hi. lia. }
        { intros i j Hi Hj. rewrite !seq_nth by assumption. lia. }
      * apply identity_ok.
      * exact R.
      * split; intros; lia.
      * intros i k Hi Hk. apply mid_neq. lia.
      * intros i Hi. rewrite mid_eq. apply (F_1_neq_0 (kth K)).
      * reflexivity.
      * intros i j Hi Hj. rewrite seq_nth by exact Hi. simpl. ring.
    + intros c [r s] Hc (L & U & piv & LI). rewrite Nat.add_0_l. eapply lu_step_ok; eassumption.
  - intros [r s] (L & U & piv & [ip il iu ie ilow idg iid ipr]). cbn [fst snd] in *.
    destruct (permutation_from_vec_ok FS (lu_p s) n) as (p & -> & Rp); [exact (proj1 ip)|]. cbn [bind].
    apply safe_Ok. cbv beta iota zeta. exists (lu_p s), L, U, r, piv.
    split; [exact ip|]. split; [exact Rp|]. split; [exact il|]. split; [exact iu|].
    split; [exact ilow|]. split; [exact idg|]. split; [exact ie|].
    intros i j Hi Hj. rewrite perm_mat_mul by assumption. rewrite ipr by assumption. unfold mmul.
    pose proof (ech_le _ _ _ _ _ ie) as Hr.
    replace n with (r + (n - r)) at 1 by lia. rewrite sumn_split. f_equal.
    destruct (Nat.leb_spec r i) as [G|G].
    + rewrite (sumn_delta (n - r) (i - r)).
      * replace (r + (i - r)) with i by lia. rewrite iid, mid_eq by lia. ring.
      * lia.
      * intros k Hk N. rewrite iid, mid_neq by lia. ring.
    + symmetry. apply sumn_zero'. intros k Hk. rewrite iid, mid_neq by lia. ring.
Qed.

End Alg.

(** ** The upper factor of lu is the matrix row_echelon computes *)
Section Same.
Context {F : FieldImpl} (T : StabImpl F).
Notation mat := (mat F).

Lemma foldM_sim {A S1 S2 : Type} (f : S1 -> A -> res S1) (g : S2 -> A -> res S2) (R : S1 -> S2 -> Prop) l :
  (forall x s1 s2 s1' s2', R s1 s2 -> f s1 x = Ok s1' -> g s2 x = Ok s2' -> R s1' s2') ->
  forall s1 s2 s1' s2', R s1 s2 -> foldM f l s1 = Ok s1' -> foldM g l s2 = Ok s2' -> R s1' s2'.
Proof.
  intros H. induction l as [|x l IH]; simpl; intros s1 s2 s1' s2' HR E1 E2.
  - inversion E1; inversion E2; subst. exact HR.
  - apply bind_Ok in E1, E2. destruct E1 as (t1 & A1 & B1), E2 as (t2 & A2 & B2).
    eapply IH; [|exact B1|exact B2]. eapply H; eassumption.
Qed.
Lemma lu_row_echelon_same a p l u s :
  mat_lu T a = Ok (p, l, u) -> mat_row_echelon T a = Ok s -> fb s = u.
Proof.
  unfold mat_lu, mat_row_echelon. intros H1 H2.
  apply bind_Ok in H1. destruct H1 as (s1 & E1 & H1). apply bind_Ok in H1. destruct H1 as (pv & _ & H1).
  inversion H1; subst. apply bind_Ok in H2. destruct H2 as (s2 & E2 & H2). inversion H2; subst. clear H1 H2.
  assert (G : fst s1 = fst s2 /\ lu_u (snd s1) = fb (snd s2)).
  2:{ symmetry. apply G. }
  revert E1 E2. apply (foldM_sim (lu_step T (mrows a)) (ech_step T (mrows a))
     (fun x y => fst x = fst y /\ lu_u (snd x) = fb (snd y))).
  2:{ split; reflexivity. }
  clear. intros c [r1 t1] [r2 t2] [r1' t1'] [r2' t2'] [Er Eu] E1 E2. cbn [fst snd] in *. subst r2.
  unfold lu_step in E1. unfold ech_step in E2. destruct (mrows a <=? r1).
  { inversion E1; inversion E2; subst. auto. }
  apply bind_Ok in E1. destruct E1 as (o & Ho & E1). rewrite Eu in Ho.
  apply bind_Ok in E2. destruct E2 as (o' & Ho' & E2). rewrite Ho in Ho'. inversion Ho'; subst o'. clear Ho'.
  destruct o as [[si x]|]; [|inversion E1; inversion E2; subst; auto].
  apply bind_Ok in E1. destruct E1 as (lu1 & P1 & E1). apply bind_Ok in E1. destruct E1 as (lu2 & P2 & E1).
  apply bind_Ok in E1. destruct E1 as (lu3 & P3 & E1). inversion E1; subst; clear E1.
  apply bind_Ok in E2. destruct E2 as (g1 & Q1 & E2). apply bind_Ok in E2. destruct E2 as (v & Dv & E2).
  apply bind_Ok in E2. destruct E2 as (g2 & Q2 & E2). apply bind_Ok in E2. destruct E2 as (g3 & Q3 & E2).
  inversion E2; subst; clear E2. cbn. split; [reflexivity|].
  assert (U1 : lu_u lu1 = fb g1).
  { unfold lu_permute in P1. apply bind_Ok in P1. destruct P1 as (? & _ & P1).
    apply bind_Ok in P1. destruct P1 as (? & X & P1). apply bind_Ok in P1. destruct P1 as (? & _ & P1). inversion P1; subst.
    unfold form_permute_rows in Q1. apply bind_Ok in Q1. destruct Q1 as (? & _ & Q1).
    apply bind_Ok in Q1. destruct Q1 as (? & Y & Q1). inversion Q1; subst. cbn. congruence. }
  assert (U2 : lu_u lu2 = fb g2).
  { unfold lu_scale_row in P2. apply bind_Ok in P2. destruct P2 as (? & _ & P2).
    apply bind_Ok in P2. destruct P2 as (v' & Dv' & P2). apply bind_Ok in P2. destruct P2 as (? & X & P2). inversion P2; subst.
    unfold form_scale_row in Q2. apply bind_Ok in Q2. destruct Q2 as (? & _ & Q2).
    apply bind_Ok in Q2. destruct Q2 as (? & Y & Q2). inversion Q2; subst. cbn. congruence. }
  clear - P3 Q3 U2. unfold lu_replace_col_under_row in P3. unfold form_replace_under, form_replace in Q3.
  rewrite U2 in P3. revert P3 Q3.
  match goal with |- foldM ?f ?l _ = _ -> foldM ?g _ _ = _ -> _ =>
    apply (foldM_sim f g (fun x y => lu_u x = fb y)) end.
  2:{ exact U2. }
  clear. intros r2 s1 s2 s1' s2' E H1 H2. rewrite E in H1.
  apply bind_Ok in H1. destruct H1 as (x & X & H1). apply bind_Ok in H1. destruct H1 as (nx & NX & H1).
  apply bind_Ok in H1. destruct H1 as (u & UX & H1). apply bind_Ok in H1. destruct H1 as (l & _ & H1). inversion H1; subst.
  apply bind_Ok in H2. destruct H2 as (x' & X' & H2). apply bind_Ok in H2. destruct H2 as (? & _ & H2).
  apply bind_Ok in H2. destruct H2 as (? & _ & H2). apply bind_Ok in H2. destruct H2 as (nx' & NX' & H2).
  apply bind_Ok in H2. destruct H2 as (u' & UX' & H2). inversion H2; subst. cbn.
  rewrite X in X'. inversion X'; subst. congruence.
Qed.
End Same.
