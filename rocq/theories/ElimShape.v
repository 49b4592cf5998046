(** * Elimination over a coefficient type whose operations always return a value (as f32 and f64):
    the only way it can fail is the unwrap in get_max_index. *)
From Verif Require Import Base BaseLemmas FieldIface UtilModel MatModel AlgModel MatProofs AlgProofs.
From Coq Require Import Lia.
Local Open Scope nat_scope.

(** [outc P x Q]: [x] is a value with [Q], or, if [P], the panic of an unwrap *)
Definition outc {A : Type} (P : Prop) (x : res A) (Q : A -> Prop) : Prop :=
  match x with Ok a => Q a | Panic UnwrapNone => P | _ => False end.
Lemma outc_bind {A B : Type} P (x : res A) (f : A -> res B) Q R :
  outc P x Q -> (forall a, Q a -> outc P (f a) R) -> outc P (bind x f) R.
Proof. destruct x as [a|[]|]; simpl; auto. Qed.
Lemma outc_mono {A : Type} (P P' : Prop) (x : res A) (Q Q' : A -> Prop) :
  outc P x Q -> (P -> P') -> (forall a, Q a -> Q' a) -> outc P' x Q'.
Proof. destruct x as [a|[]|]; simpl; auto. Qed.
Lemma outc_Ok {A : Type} P (x : res A) a (Q : A -> Prop) : x = Ok a -> Q a -> outc P x Q.
Proof. intros ->. auto. Qed.
Lemma outc_ex {A : Type} P (x : res A) (Q : A -> Prop) : (exists a, x = Ok a /\ Q a) -> outc P x Q.
Proof. intros (a & -> & H). exact H. Qed.
Lemma outc_val {A : Type} (x : res A) (Q : A -> Prop) : outc False x Q -> exists a, x = Ok a /\ Q a.
Proof. destruct x as [a|[]|]; simpl; try contradiction. eauto. Qed.
Lemma outc_foldM {A B : Type} P (f : B -> A -> res B) (I : B -> Prop) l : forall s, I s ->
  (forall s x, In x l -> I s -> outc P (f s x) I) -> outc P (foldM f l s) I.
Proof.
  induction l as [|x l IH]; intros s Hs H; cbn [foldM]; [exact Hs|].
  eapply outc_bind; [apply H; [left; reflexivity|exact Hs]|]. intros s' Hs'. apply IH; [exact Hs'|].
  intros. apply H; [right; assumption|assumption].
Qed.
Lemma outc_mapM {A B : Type} P (f : A -> res B) (Q : A -> B -> Prop) l :
  (forall x, In x l -> outc P (f x) (Q x)) -> outc P (mapM f l) (Forall2 Q l).
Proof.
  induction l as [|x l IH]; intros H; cbn [mapM]; [constructor|].
  eapply outc_bind; [apply H; left; reflexivity|]. intros y Hy.
  eapply outc_bind; [apply IH; intros; apply H; right; assumption|]. intros ys Hys. constructor; assumption.
Qed.

Record TotalOps {F : FieldImpl} (T : StabImpl F) : Prop := {
  tot_add : forall x y : F, exists z, fadd x y = Ok z;
  tot_sub : forall x y : F, exists z, fsub x y = Ok z;
  tot_mul : forall x y : F, exists z, fmul x y = Ok z;
  tot_div : forall x y : F, exists z, fdiv x y = Ok z;
  tot_stab : forall x y : F, exists o, fstab T x y = Ok o
}.

Section Shape.
Context {F : FieldImpl} (T : StabImpl F) (TO : TotalOps T).
Notation mat := (mat F).
Definition shp (n m : nat) (a : mat) : Prop := mshape a /\ mrows a = n /\ mcols a = m.

Lemma shp_get P n m a r c (B : Type) (f : F -> res B) Q : shp n m a -> r < n -> c < m ->
  (forall x, x = mentry a r c -> outc P (f x) Q) -> outc P (bind (mget a r c) f) Q.
Proof. intros (S & <- & <-) Hr Hc H. rewrite mget_ok by assumption. cbn [bind]. apply H. reflexivity. Qed.
Lemma shp_set P n m a r c x : shp n m a -> r < n -> c < m -> outc P (mset a r c x) (shp n m).
Proof.
  intros (S & <- & <-) Hr Hc. destruct (mset_ok a r c x S Hr Hc) as (a' & -> & S' & R & C & _). repeat split; assumption.
Qed.
Lemma tot {A B : Type} P (x : res A) (f : A -> res B) Q : (exists a, x = Ok a) -> (forall a, outc P (f a) Q) -> outc P (bind x f) Q.
Proof. intros (a & ->) H. apply H. Qed.

Lemma scale_row_shp P n m a i s : shp n m a -> i < n -> outc P (mat_scale_row a i s) (shp n m).
Proof.
  intros H Hi. unfold mat_scale_row. pose proof H as (_ & _ & ->). apply outc_foldM; [exact H|].
  intros a' c Ic H'. apply in_seq in Ic. eapply shp_get; [exact H'|exact Hi|lia|]. intros x _.
  apply tot; [apply (tot_mul T TO)|]. intros y. apply shp_set; [exact H'|exact Hi|lia].
Qed.
Lemma permute_rows_shp P n m a s t : shp n m a -> s < n -> t < n -> outc P (mat_permute_rows a s t) (shp n m).
Proof.
  intros H Hs Ht. unfold mat_permute_rows. pose proof H as (_ & _ & ->). apply outc_foldM; [exact H|].
  intros a' c Ic H'. apply in_seq in Ic. eapply shp_get; [exact H'|exact Hs|lia|]. intros x _.
  eapply shp_get; [exact H'|exact Ht|lia|]. intros y _.
  eapply outc_bind; [apply shp_set; [exact H'|exact Hs|lia]|]. intros a1 H1. apply shp_set; [exact H1|exact Ht|lia].
Qed.
Lemma replace_row_shp P n m a s t x : shp n m a -> s < n -> t < n -> outc P (mat_replace_row a s t x) (shp n m).
Proof.
  intros H Hs Ht. unfold mat_replace_row. pose proof H as (_ & _ & ->). apply outc_foldM; [exact H|].
  intros a' c Ic H'. apply in_seq in Ic. eapply shp_get; [exact H'|exact Ht|lia|]. intros y _.
  eapply shp_get; [exact H'|exact Hs|lia|]. intros z _.
  apply tot; [apply (tot_mul T TO)|]. intros p. apply tot; [apply (tot_add T TO)|]. intros v.
  apply shp_set; [exact H'|exact Ht|lia].
Qed.
Lemma identity_shp n : shp n n (mat_identity n).
Proof. split; [apply from_fn_shape|split; reflexivity]. Qed.

(** ** get_max_index *)
Lemma max_index_lt (le : F -> F -> res (option comparison)) (l : list F) : l <> [] -> (forall x y, exists o, le x y = Ok o) ->
  outc True (get_max_index le l) (fun i => i < length l).
Proof.
  intros N H. unfold get_max_index, max_by, enumerate. destruct l as [|x0 l]; [congruence|]. cbn [length seq combine].
  rewrite bind_assoc. eapply (outc_bind _ _ _ (fun p => fst p < S (length l))).
  - apply outc_foldM; [cbn; lia|]. intros p q Iq Hp. rewrite bind_assoc. apply tot; [apply H|]. intros [c|]; [|exact I].
    cbn [unwrap bind]. apply (outc_Ok _ _ _ _ eq_refl). destruct c; [| |exact Hp];
    destruct q as [j y]; apply in_combine_l in Iq; apply in_seq in Iq; cbn [fst]; lia.
  - intros p Hp. cbn [bind unwrap]. exact Hp.
Qed.
Lemma stable_shp n m a c r : shp n m a -> c < m -> r < n ->
  outc True (stable_column_index T a c r) (fun o => match o with Some (i, _) => r <= i < n | None => True end).
Proof.
  intros H Hc Hr. unfold stable_column_index. pose proof H as (Sh & Rn & Cm).
  rewrite col_list_ok by (rewrite ?Cm; assumption). cbn [bind].
  set (l := skipn r _). assert (L : length l = n - r) by (unfold l; rewrite skipn_length, map_length, seq_length, Rn; reflexivity).
  eapply outc_bind; [apply max_index_lt; [intros E; rewrite E in L; cbn in L; lia|apply (tot_stab T TO)]|].
  intros i Hi. cbv beta in Hi. rewrite L in Hi. eapply shp_get; [exact H|lia|exact Hc|]. intros x _. simpl. destruct (feps T x f0); [exact I|lia].
Qed.

(** ** row_echelon *)
Definition fshp (n m : nat) (s : form) : Prop := shp n n (@fp F s) /\ shp n m (fb s).
Lemma form_replace_shp P n m s r c rows : fshp n m s -> r < n -> c < m -> (forall i, In i rows -> i < n) ->
  outc P (form_replace s r c rows) (fshp n m).
Proof.
  intros H Hr Hc Hrows. unfold form_replace. apply outc_foldM; [exact H|]. intros s' r2 I2 [Hp Hb].
  eapply shp_get; [exact Hb|apply Hrows; exact I2|exact Hc|]. intros x _.
  apply tot; [apply (tot_sub T TO)|]. intros nx.
  eapply outc_bind; [apply replace_row_shp; [exact Hp|exact Hr|apply Hrows; exact I2]|]. intros p Hp'.
  apply tot; [apply (tot_sub T TO)|]. intros nx'.
  eapply outc_bind; [apply replace_row_shp; [exact Hb|exact Hr|apply Hrows; exact I2]|]. intros b Hb'.
  split; assumption.
Qed.
Lemma ech_step_shp n m r f c : fshp n m f -> c < m ->
  outc True (ech_step T n (r, f) c) (fun s => fshp n m (snd s)).
Proof.
  intros H Hc. pose proof H as [Hp Hb]. unfold ech_step. destruct (Nat.leb_spec n r) as [L|L]; [exact H|].
  eapply outc_bind; [apply (stable_shp n m _ c r Hb Hc L)|]. intros [[si x]|] Hs; [|exact H].
  eapply (outc_bind _ _ _ (fshp n m)).
  { unfold form_permute_rows. eapply outc_bind; [apply permute_rows_shp; [exact Hp|exact L|lia]|]. intros p Hp'.
    eapply outc_bind; [apply permute_rows_shp; [exact Hb|exact L|lia]|]. intros b Hb'. split; assumption. }
  intros g1 [Hp1 Hb1]. apply tot; [apply (tot_div T TO)|]. intros i.
  eapply (outc_bind _ _ _ (fshp n m)).
  { unfold form_scale_row. eapply outc_bind; [apply scale_row_shp; [exact Hp1|exact L]|]. intros p Hp'.
    eapply outc_bind; [apply scale_row_shp; [exact Hb1|exact L]|]. intros b Hb'. split; assumption. }
  intros g2 H2. eapply outc_bind.
  { unfold form_replace_under. apply (form_replace_shp True n m); [exact H2|exact L|exact Hc|].
    pose proof H2 as (_ & _ & Rn & _). rewrite Rn. intros j Ij. apply in_seq in Ij. lia. }
  intros g3 H3. exact H3.
Qed.
Theorem row_echelon_shp n m a : shp n m a -> outc True (mat_row_echelon T a) (fshp n m).
Proof.
  intros H. pose proof H as (_ & Rn & Cm). unfold mat_row_echelon. rewrite Rn, Cm.
  eapply outc_bind.
  - apply (outc_foldM True _ (fun s => fshp n m (snd s))).
    + split; [apply identity_shp|exact H].
    + intros [r f] c Ic Hf. apply in_seq in Ic. apply (ech_step_shp n m); [exact Hf|lia].
  - intros s Hs. exact Hs.
Qed.

(** ** what follows row_echelon never fails *)
Lemma position_lt {A : Type} (p : A -> bool) l i : position p l = Some i -> i < length l.
Proof. intros E. destruct (position_Some _ _ _ E) as (l1 & x & l2 & -> & <- & _). rewrite app_length. cbn. lia. Qed.
Lemma first_nonzero_shp P n m a r : shp n m a -> r < n ->
  outc P (first_nonzero T a r) (fun o => match o with Some c => c < m | None => True end).
Proof.
  intros (Sh & Rn & Cm) Hr. unfold first_nonzero, mat_get_row. rewrite row_slice_ok by (rewrite ?Rn; assumption).
  cbn [bind mat_from_iter ments]. apply (outc_Ok _ _ _ _ eq_refl). destruct (position _ _) as [c|] eqn:E; [|exact I].
  apply position_lt in E. rewrite map_length, seq_length, Cm in E. exact E.
Qed.
Theorem to_rref_shp n m s : fshp n m s -> outc False (form_to_rref T s) (fshp n m).
Proof.
  intros H. pose proof H as (_ & _ & Rn & _). unfold form_to_rref. rewrite Rn. apply outc_foldM; [exact H|].
  intros s' r Ir Hs. apply in_rev, in_seq in Ir. eapply outc_bind; [apply (first_nonzero_shp False n m); [apply Hs|lia]|].
  intros [c|] Hc; [|exact Hs]. apply form_replace_shp; [exact Hs|lia|exact Hc|]. intros i Ii. apply in_seq in Ii. lia.
Qed.
Lemma zero_rows_shp n m a : shp n m a -> outc False (zero_rows T a) (fun k => k <= n).
Proof.
  intros H. pose proof H as (_ & Rn & _). unfold zero_rows. rewrite Rn.
  assert (G : forall l k, (forall r, In r l -> r < n) ->
    outc False (foldM (fun k r => o <- first_nonzero T a r ;; Ok (match o with None => k + 1 | Some _ => k end)) l k)
      (fun k' => k' <= k + length l)).
  { induction l as [|r l IH]; intros k Hl; cbn [foldM length]; [simpl; lia|].
    rewrite bind_assoc. eapply outc_bind; [apply (first_nonzero_shp False n m); [exact H|apply Hl; left; reflexivity]|].
    intros o _. cbn [bind]. eapply outc_mono; [apply IH; intros; apply Hl; right; assumption|auto|].
    intros k' Hk'. cbv beta in *. destruct o; lia. }
  eapply outc_mono; [apply G; intros r Ir; apply in_seq in Ir; lia|auto|]. intros k. rewrite seq_length. cbn. auto.
Qed.
Theorem rank_shp n m s : fshp n m s -> outc False (form_rank T s) (fun k => k <= n).
Proof.
  intros (_ & H). pose proof H as (_ & Rn & _). unfold form_rank.
  eapply outc_bind; [apply (zero_rows_shp n m _ H)|]. intros z Hz. cbv beta in Hz. rewrite Rn.
  destruct (Nat.leb_spec z n); [|lia]. simpl. lia.
Qed.
Theorem kernel_shp n m s : fshp n m s -> outc False (compute_kernel T s) (Forall (shp m 1)).
Proof.
  intros (_ & H). pose proof H as (_ & Rn & Cm). unfold compute_kernel, bound_variables. rewrite Rn, Cm.
  eapply outc_bind.
  { eapply outc_bind; [apply outc_mapM; intros r Ir; apply in_seq in Ir; apply (first_nonzero_shp False n m); [exact H|lia]|].
    intros os _. apply (outc_Ok _ _ _ (fun _ => True) eq_refl). exact I. }
  intros bound _. eapply outc_mono.
  - apply (outc_mapM False _ (fun _ v => shp m 1 v)). intros c Ic. apply filter_In in Ic as [Ic _]. apply in_seq in Ic.
    unfold kernel_vector. rewrite Rn, Cm. apply outc_foldM.
    + split; [|split; reflexivity]. unfold mshape, mat_e. cbn [ments mrows mcols]. rewrite map_length, seq_length. lia.
    + intros v r Ir Hv. apply in_seq in Ir. eapply outc_bind; [apply (first_nonzero_shp False n m); [exact H|lia]|].
      intros [c2|] Hc2; [|exact Hv]. destruct (c2 <? c); [|exact Hv].
      eapply shp_get; [exact H|lia|lia|]. intros x _. apply tot; [apply (tot_sub T TO)|]. intros y.
      apply shp_set; [exact Hv|exact Hc2|lia].
  - auto.
  - intros l Hl. clear - Hl. induction Hl; constructor; assumption.
Qed.

(** ** lu *)
Definition lshp (n m : nat) (s : lu_state) : Prop :=
  length (@lu_p F s) = n /\ Forall (fun i => i < n) (lu_p s) /\ shp n n (lu_l s) /\ shp n m (lu_u s).
Lemma Forall_set {A : Type} (P : A -> Prop) l i x : Forall P l -> P x -> Forall P (list_set l i x).
Proof. intros H Hx. revert i. induction H; intros [|i]; simpl; constructor; auto. Qed.
Lemma list_swap_shp P n l i j : length l = n -> Forall (fun k => k < n) l -> i < n -> j < n ->
  outc P (list_swap l i j) (fun l' => length l' = n /\ Forall (fun k => k < n) l').
Proof.
  intros L H Hi Hj. unfold list_swap. rewrite (vget_Ok _ _ 0) by lia. cbn [bind]. rewrite (vget_Ok _ _ 0) by lia. cbn [bind].
  rewrite vset_Ok by lia. cbn [bind]. rewrite vset_Ok by (rewrite list_set_length; lia). simpl.
  rewrite !list_set_length. split; [exact L|]. rewrite Forall_forall in H.
  apply Forall_set; [apply Forall_set; [apply Forall_forall; exact H|]|]; apply H; apply nth_In; lia.
Qed.
Lemma permute_under_shp P n a s t : shp n n a -> s < n -> t < n -> outc P (permute_under_diagonal a s t) (shp n n).
Proof.
  intros H Hs Ht. unfold permute_under_diagonal. apply outc_foldM; [exact H|]. intros a' c Ic H'. apply in_seq in Ic.
  unfold mat_swap. cbn [fst snd]. eapply shp_get; [exact H'|exact Hs|lia|]. intros x _.
  eapply shp_get; [exact H'|exact Ht|lia|]. intros y _.
  eapply outc_bind; [apply shp_set; [exact H'|exact Hs|lia]|]. intros a1 H1. apply shp_set; [exact H1|exact Ht|lia].
Qed.
Lemma lu_step_shp n m r s c : lshp n m s -> c < m -> outc True (lu_step T n (r, s) c) (fun s => lshp n m (snd s)).
Proof.
  intros H Hc. pose proof H as (Lp & Fp & Hl & Hu). unfold lu_step. destruct (Nat.leb_spec n r) as [L|L]; [exact H|].
  eapply outc_bind; [apply (stable_shp n m _ c r Hu Hc L)|]. intros [[si x]|] Hs; [|exact H].
  eapply (outc_bind _ _ _ (lshp n m)).
  { unfold lu_permute. eapply outc_bind; [apply (list_swap_shp True n); [exact Lp|exact Fp|exact L|lia]|]. intros p [Lp' Fp'].
    eapply outc_bind; [apply permute_rows_shp; [exact Hu|exact L|lia]|]. intros u Hu'.
    eapply outc_bind; [apply permute_under_shp; [exact Hl|exact L|lia]|]. intros l Hl'. unfold lshp. cbn. auto. }
  intros s1 (Lp1 & Fp1 & Hl1 & Hu1). eapply (outc_bind _ _ _ (lshp n m)).
  { unfold lu_scale_row. eapply outc_bind; [apply shp_set; [exact Hl1|exact L|exact L]|]. intros l Hl'.
    apply tot; [apply (tot_div T TO)|]. intros i. eapply outc_bind; [apply scale_row_shp; [exact Hu1|exact L]|].
    intros u Hu'. unfold lshp. cbn. auto. }
  intros s2 H2. eapply outc_bind.
  { unfold lu_replace_col_under_row. pose proof H2 as (_ & _ & _ & _ & Rn & _). rewrite Rn.
    apply (outc_foldM True _ (lshp n m)); [exact H2|]. intros s3 r2 I2 (Lp3 & Fp3 & Hl3 & Hu3). apply in_seq in I2.
    eapply shp_get; [exact Hu3|lia|exact Hc|]. intros y _. apply tot; [apply (tot_sub T TO)|]. intros nx.
    eapply outc_bind; [apply replace_row_shp; [exact Hu3|exact L|lia]|]. intros u Hu'.
    eapply outc_bind; [apply shp_set; [exact Hl3|lia|exact L]|]. intros l Hl'. unfold lshp. cbn. auto. }
  intros s4 H4. exact H4.
Qed.
Theorem lu_shp n m a : shp n m a ->
  outc True (mat_lu T a) (fun '(p, l, u) => shp n n p /\ shp n n l /\ shp n m u).
Proof.
  intros H. pose proof H as (_ & Rn & Cm). unfold mat_lu. rewrite Rn, Cm. eapply outc_bind.
  - apply (outc_foldM True _ (fun s => lshp n m (snd s))).
    + cbn [snd]. unfold lshp. cbn [lu_p lu_l lu_u]. split; [apply seq_length|]. split; [|split; [apply identity_shp|exact H]].
      apply Forall_forall. intros i Ii. apply in_seq in Ii. lia.
    + intros [r s] c Ic Hs. apply in_seq in Ic. apply (lu_step_shp n m); [exact Hs|lia].
  - intros [r s] (Lp & Fp & Hl & Hu). cbn [snd] in *. eapply (outc_bind _ _ _ (shp n n)); [|intros p Hp; cbn; auto].
    unfold mat_permutation_from_vec. rewrite Lp.
    rewrite (from_fnM_Ok n n _ (fun r c => if nth r (lu_p s) 0 =? c then f1 else f0)).
    + split; [apply from_fn_shape|split; reflexivity].
    + intros i j Hi Hj. rewrite (vget_Ok _ _ 0) by lia. reflexivity.
Qed.
End Shape.
