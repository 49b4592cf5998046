(** * Inputs for which nothing overflows: C103.

    [rb A D r]: the numerator of [r] is at most [A] in absolute value and its denominator is positive and at most
    [D].  [sumA k A D = k*A*D^(k-1)] and [sumD k D = D^k] bound a sum of [k] such numbers (sums are not reduced).  With D = 1
    these are the bounds for integers. *)
From Coq Require Import ZArith QArith Qcanon.
From Verif Require Import Base BaseLemmas IntModel RatModel FieldIface IntProofs RatProofs MDegModel PolyModel MonoSpec MDegProofs
  PolySpec PolyProofs UtilModel MatModel MatProofs PropMdeg PropDiv BoundProofs.
Open Scope Z_scope.

Notation R := (rat_impl Debug).
Definition yields {A : Type} (x : res A) (Q : A -> Prop) : Prop := exists a, x = Ok a /\ Q a.
Lemma yields_bind {A B : Type} (x : res A) (f : A -> res B) P Q : yields x P -> (forall a, P a -> yields (f a) Q) -> yields (bind x f) Q.
Proof. intros (a & -> & Pa) H. exact (H a Pa). Qed.
Lemma yields_Ok {A : Type} (a : A) (Q : A -> Prop) : Q a -> yields (Ok a) Q.
Proof. intros H. exists a. split; [reflexivity|exact H]. Qed.
Lemma yields_mono {A : Type} (x : res A) (P Q : A -> Prop) : yields x P -> (forall a, P a -> Q a) -> yields x Q.
Proof. intros (a & E & Pa) H. exists a. auto. Qed.
Lemma yields_mapM {A B : Type} (f : A -> res B) (Q : B -> Prop) l : (forall x, In x l -> yields (f x) Q) -> yields (mapM f l) (fun r => Forall Q r /\ length r = length l).
Proof.
  induction l as [|x l IH]; intros H; cbn [mapM].
  - apply yields_Ok. split; [constructor|reflexivity].
  - eapply yields_bind; [apply H; left; reflexivity|]. intros y Qy. eapply yields_bind; [apply IH; intros; apply H; right; assumption|].
    intros r [Fr Lr]. apply yields_Ok. split; [constructor; assumption|cbn; lia].
Qed.

(** all coefficients bounded *)
Definition pb (A D : Z) (p : poly R) : Prop := Forall (fun t : term R => rb A D (@coef R t : rat)) p.
Definition mb (A D : Z) (a : mat R) : Prop := Forall (fun x => rb A D (x : rat)) (ments a).
Notation clean := (pwf rat_spec).

Lemma pb_mono A D A' D' p : A <= A' -> D <= D' -> pb A D p -> pb A' D' p.
Proof. intros L1 L2. apply Forall_impl. intros t. apply rb_mono; assumption. Qed.

Lemma add_term_bound (acc : poly R) t A D B E : (forall s, In s acc -> tdeg s = tdeg t -> rb A D (@coef R s : rat)) -> rb B E (@coef R t : rat) ->
  1 <= D -> 0 <= A -> A * E + B * D <= i64_max -> D * E <= i64_max ->
  yields (poly_add_term acc t) (fun r => forall s, In s r -> In s acc \/ tdeg s = tdeg t /\ rb (A * E + B * D) (D * E) (@coef R s : rat)).
Proof.
  intros H Ht HD HA L1 L2. pose proof (rb_nonneg _ _ _ Ht) as [HB HE].
  assert (Rt : rb (A * E + B * D) (D * E) (@coef R t : rat)).
  { apply (rb_mono B E); [|nia|exact Ht]. assert (0 <= A * E) by (apply Z.mul_nonneg_nonneg; lia). nia. }
  unfold poly_add_term. destruct (poly_is_zero acc).
  { apply yields_Ok. intros s Hs. right. unfold poly_from_term in Hs. destruct (term_is_zero t); [destruct Hs|]. destruct Hs as [<-|[]]. auto. }
  destruct (term_is_zero t); [apply yields_Ok; auto|].
  destruct (position _ acc) as [i|] eqn:P.
  - destruct (position_Some _ _ _ P) as (l1 & x & l2 & -> & <- & Ex & _). apply mdeg_eqb_eq in Ex.
    assert (V : vget (l1 ++ x :: l2) (length l1) = Ok x).
    { unfold vget. rewrite nth_error_app2, Nat.sub_diag by lia. reflexivity. }
    rewrite V. cbn [bind]. destruct (rb_add A D B E (coef x) (coef t)) as (c & Ec & Rc); [apply H; [apply in_or_app; right; left; reflexivity|exact Ex]|exact Ht|exact L1|exact L2|].
    change (fadd (coef x) (coef t)) with (rat_add Debug (coef x) (coef t)). rewrite Ec. cbn [bind].
    assert (Rm : list_remove (l1 ++ x :: l2) (length l1) = l1 ++ l2).
    { clear. induction l1; simpl; [reflexivity|]. f_equal. exact IHl1. }
    assert (St : forall y, list_set (l1 ++ x :: l2) (length l1) y = l1 ++ y :: l2).
    { clear. induction l1; intros y; simpl; [reflexivity|]. f_equal. apply IHl1. }
    destruct (term_is_zero _); apply yields_Ok; [rewrite Rm|rewrite St]; intros s Hs; apply in_app_or in Hs.
    + left. apply in_or_app. cbn. tauto.
    + destruct Hs as [Hs|[<-|Hs]]; [left; apply in_or_app; auto|right; split; [exact Ex|exact Rc]|left; apply in_or_app; cbn; tauto].
  - apply yields_Ok. intros s Hs. apply in_app_or in Hs. destruct Hs as [Hs|[<-|[]]]; auto.
Qed.
Lemma poly_add_bound (p q : poly R) A D B E : pb A D p -> pb B E q -> NoDup (map tdeg q) -> 1 <= D -> 0 <= A -> 0 <= B -> 1 <= E ->
  A * E + B * D <= i64_max -> D * E <= i64_max -> yields (poly_add p q) (pb (A * E + B * D) (D * E)).
Proof.
  intros Hp Hq Nq HD HA HB HE L1 L2. unfold poly_add.
  assert (M : A <= A * E + B * D /\ D <= D * E) by (assert (0 <= B * D) by (apply Z.mul_nonneg_nonneg; lia); nia).
  (* terms whose degree is still to come satisfy the first bound *)
  assert (I1 : pb (A * E + B * D) (D * E) p) by (apply (pb_mono A D); [apply M|apply M|exact Hp]).
  assert (I2 : forall s, In s p -> In (tdeg s) (map tdeg q) -> rb A D (@coef R s : rat)).
  { intros s Hs _. unfold pb in Hp. rewrite Forall_forall in Hp. exact (Hp s Hs). }
  clear Hp. revert p I1 I2. induction Hq as [|t q Ht Hq IH]; intros p I1 I2; cbn [foldM]; [apply yields_Ok; exact I1|].
  cbn [map] in Nq. inversion Nq as [|? ? N1 N2]; subst.
  eapply yields_bind; [apply (add_term_bound p t A D B E); try assumption|].
  - intros s Hs Es. apply I2; [exact Hs|]. left. symmetry. exact Es.
  - intros r Hr. apply (IH N2).
    + apply Forall_forall. intros s Hs. destruct (Hr s Hs) as [Hs'|[_ Rs]]; [|exact Rs]. unfold pb in I1. rewrite Forall_forall in I1. exact (I1 s Hs').
    + intros s Hs Is. destruct (Hr s Hs) as [Hs'|[Es _]]; [apply I2; [exact Hs'|right; exact Is]|]. rewrite Es in Is. contradiction.
Qed.
Lemma poly_neg_bound (p : poly R) A D : pb A D p -> A <= i64_max -> yields (poly_neg p) (pb A D).
Proof.
  intros Hp L. unfold poly_neg. eapply yields_mono; [apply (yields_mapM _ (fun t : term R => rb A D (@coef R t : rat)))|intros r [H _]; exact H].
  intros t Ht. unfold pb in Hp. rewrite Forall_forall in Hp. destruct (rb_neg A D (coef t) (Hp t Ht) L) as (c & E & Rc).
  unfold term_neg. change (fneg (coef t)) with (rat_neg Debug (coef t)). rewrite E. apply yields_Ok. exact Rc.
Qed.

(** ** C103 *)
(** *** Polynomials *)
Theorem C103_add_sub : forall (p q : poly R) A D B E, clean p -> clean q -> pb A D p -> pb B E q -> 0 <= A -> 1 <= D -> 0 <= B -> 1 <= E ->
  A * E + B * D <= i64_max -> D * E <= i64_max ->
  (exists r, poly_add p q = Ok r /\ pb (A * E + B * D) (D * E) r) /\ (exists r, poly_sub p q = Ok r /\ pb (A * E + B * D) (D * E) r) /\
  exists r, poly_neg p = Ok r /\ pb A D r.
Proof.
  intros p q A D B E [_ Np] [Wq Nq] Hp Hq HA HD HB HE L1 L2. split; [apply poly_add_bound; assumption|].
  assert (BL : B <= i64_max) by (assert (0 <= A * E) by (apply Z.mul_nonneg_nonneg; lia); nia).
  assert (AL : A <= i64_max) by (assert (0 <= B * D) by (apply Z.mul_nonneg_nonneg; lia); nia). split.
  - unfold poly_sub. destruct (poly_neg_bound q B E Hq BL) as (nq & En & Bn). rewrite En. cbn [bind]. apply poly_add_bound; try assumption.
    destruct (safe_val _ _ _ (poly_neg_ok rat_spec q (Forall_twf0 rat_spec q Wq)) En) as (_ & _ & T & _). rewrite T. exact Nq.
  - exact (poly_neg_bound p A D Hp AL).
Qed.

(** the exponents of the two factors can be added *)
Definition deg_fit (p q : poly R) : Prop := forall s t, In s p -> In t q -> forall i, (expo (tdeg s) i + expo (tdeg t) i <= 255)%nat.
Lemma mul_term_bound (q : poly R) t A D B E : Forall (twf0 rat_spec) q -> twf0 rat_spec t -> pb B E q -> rb A D (@coef R t : rat) -> deg_fit [t] q ->
  0 <= B -> 1 <= E -> A * B <= i64_max -> D * E <= i64_max -> yields (poly_mul_term Debug q t) (pb (A * B) (D * E)).
Proof.
  intros Wq Wt Hq Ht DF HB HE L1 L2. unfold poly_mul_term. destruct (term_is_zero t || poly_is_zero q); [apply yields_Ok; constructor|].
  eapply yields_mono; [apply (yields_mapM _ (fun t : term R => rb (A * B) (D * E) (@coef R t : rat)))|intros r [H _]; exact H].
  intros s Hs. unfold pb in Hq. rewrite Forall_forall in Hq, Wq. pose proof (rb_nonneg _ _ _ Ht). unfold term_mul.
  destruct (term_is_zero s || term_is_zero t); [apply yields_Ok; apply rb_zero; nia|].
  destruct (rb_mul B E A D (coef s) (coef t) (Hq s Hs) Ht) as (c & Ec & Rc); [lia|lia|].
  change (fmul (coef s) (coef t)) with (rat_mul Debug (coef s) (coef t)). rewrite Ec. cbn [bind].
  destruct (proj2 (C14_add_overflow_iff (tdeg s) (tdeg t) (proj2 (proj2 (Wq s Hs))) (proj2 (proj2 Wt)))) as (d & Ed & _).
  { intros i. rewrite Nat.add_comm. apply DF; [left; reflexivity|exact Hs]. }
  rewrite Ed. apply yields_Ok. cbn [coef]. rewrite (Z.mul_comm A), (Z.mul_comm D). exact Rc.
Qed.
Theorem C103_mul : forall (p q : poly R) A D B E, clean p -> clean q -> pb A D p -> pb B E q -> 0 <= A -> 1 <= D -> 0 <= B -> 1 <= E -> deg_fit p q ->
  sumA (length p) (A * B) (D * E) <= i64_max -> sumD (length p) (D * E) <= i64_max ->
  exists r, poly_mul Debug p q = Ok r /\ pb (sumA (length p) (A * B) (D * E)) (sumD (length p) (D * E)) r.
Proof.
  intros p q A D B E [Wp Np] [Wq Nq] Hp Hq HA HD HB HE DF L1 L2. unfold poly_mul, reduce_iter.
  destruct p as [|t p]; [apply yields_Ok; constructor|]. cbn [map]. unfold pb in Hp.
  assert (AB : 0 <= A * B) by (apply Z.mul_nonneg_nonneg; lia). assert (DE : 1 <= D * E) by nia.
  assert (TB : forall s, In s (t :: p) -> yields (poly_mul_term Debug q s) (fun r => pb (A * B) (D * E) r /\ NoDup (map tdeg r))).
  { intros s Hs. rewrite Forall_forall in Wp, Hp.
    destruct (mul_term_bound q s A D B E) as (r & Er & Br); try assumption.
    - apply Forall_twf0. exact Wq.
    - apply twf_twf0, Wp, Hs.
    - apply Hp, Hs.
    - intros u v [<-|[]] Hv. apply DF; assumption.
    - pose proof (sumA_mono 1 (length (t :: p)) (A * B) (D * E) AB DE ltac:(cbn; lia)). rewrite sumA_1 in H. lia.
    - pose proof (sumD_mono 1 (length (t :: p)) (D * E) DE ltac:(cbn; lia)). rewrite sumD_1 in H. lia.
    - exists r. split; [exact Er|]. split; [exact Br|].
      destruct (safe_val _ _ _ (poly_mul_term_ok rat_spec q s (Forall_twf0 _ _ Wq) (twf_twf0 _ _ (Wp s Hs))) Er) as (_ & X & _).
      apply X. split; assumption. }
  eapply yields_bind with (P := fun o => match o with Some r => pb (sumA (length (t :: p)) (A * B) (D * E)) (sumD (length (t :: p)) (D * E)) r | None => False end);
    [|intros [r|] Hr; [apply yields_Ok; exact Hr|destruct Hr]].
  unfold term_mul_poly. eapply yields_bind; [apply TB; left; reflexivity|]. intros r0 [B0 _].
  eapply yields_bind; [|intros r Hr; apply yields_Ok; exact Hr].
  (* after k terms the coefficients are bounded by sumA k, sumD k *)
  assert (G : forall l k acc, (1 <= k)%nat -> (k + length l = length (t :: p))%nat -> (forall s, In s l -> In s (t :: p)) -> pb (sumA k (A * B) (D * E)) (sumD k (D * E)) acc ->
     yields (foldM (fun acc y => b <- y ;; poly_add acc b) (map (fun u => poly_mul_term Debug q u) l) acc)
       (pb (sumA (length (t :: p)) (A * B) (D * E)) (sumD (length (t :: p)) (D * E)))).
  { induction l as [|s l IH]; intros k acc K1 K2 Sub Ba; cbn [map foldM].
    - apply yields_Ok. replace (length (t :: p)) with k by (cbn in K2 |- *; lia). exact Ba.
    - eapply yields_bind; [|intros acc' Ba'; apply (IH (S k) acc'); [lia|cbn in K2 |- *; lia|intros; apply Sub; right; assumption|exact Ba']].
      eapply yields_bind; [apply TB, Sub; left; reflexivity|]. intros r1 [B1 N1].
      pose proof (sumA_mono (S k) (length (t :: p)) (A * B) (D * E) AB DE ltac:(cbn in K2 |- *; lia)).
      pose proof (sumD_mono (S k) (length (t :: p)) (D * E) DE ltac:(cbn in K2 |- *; lia)).
      pose proof (sumA_S k (A * B) (D * E) K1) as SA. pose proof (sumD_S k (D * E)) as SD.
      pose proof (sumD_pos k (D * E) DE). pose proof (sumA_nonneg k (A * B) (D * E) AB DE).
      rewrite SA, SD. apply poly_add_bound; try assumption; lia. }
  apply (G p 1%nat r0); [lia|cbn; lia|intros; right; assumption|]. rewrite sumA_1, sumD_1. exact B0.
Qed.

(** *** Evaluation *)
Lemma rat_sum_bound (l : list (res rat)) A D : 0 <= A -> 1 <= D -> (forall x, In x l -> yields x (rb A D)) ->
  sumA (length l) A D <= i64_max -> sumD (length l) D <= i64_max -> yields (rat_sum Debug l) (rb (sumA (length l) A D) (sumD (length l) D)).
Proof.
  intros HA HD H L1 L2. unfold rat_sum, reduce_iter. destruct l as [|x l].
  { apply yields_Ok. apply rb_zero; [apply sumA_nonneg; assumption|apply sumD_pos; assumption]. }
  eapply yields_bind with (P := fun o => match o with Some r => rb (sumA (length (x :: l)) A D) (sumD (length (x :: l)) D) r | None => False end);
    [|intros [r|] Hr; [apply yields_Ok; exact Hr|destruct Hr]].
  eapply yields_bind; [apply H; left; reflexivity|]. intros a Ra.
  eapply yields_bind; [|intros r Hr; apply yields_Ok; exact Hr].
  assert (G : forall l' k acc, (k + length l' = length (x :: l))%nat -> (forall y, In y l' -> In y (x :: l)) -> rb (sumA k A D) (sumD k D) acc ->
    yields (foldM (fun acc y => b <- y ;; rat_add Debug acc b) l' acc) (rb (sumA (length (x :: l)) A D) (sumD (length (x :: l)) D))).
  { induction l' as [|y l' IH]; intros k acc K Sub Ha; cbn [foldM].
    - apply yields_Ok. replace (length (x :: l)) with k by (cbn in K |- *; lia). exact Ha.
    - eapply yields_bind; [|intros acc' Ha'; apply (IH (S k)); [cbn in K |- *; lia|intros; apply Sub; right; assumption|exact Ha']].
      eapply yields_bind; [apply H, Sub; left; reflexivity|]. intros b Rb.
      pose proof (sumA_mono (S k) (length (x :: l)) A D HA HD ltac:(cbn in K |- *; lia)).
      pose proof (sumD_mono (S k) (length (x :: l)) D HD ltac:(cbn in K |- *; lia)).
      apply rb_sum_step; [assumption|assumption|lia|lia]. }
  apply (G l 1%nat); [cbn; lia|intros; right; assumption|]. rewrite sumA_1, sumD_1. exact Ra.
Qed.
(** the sum of the exponents of [d] *)
Definition tot (d : mdeg) : nat := fold_right Nat.add 0%nat d.
Lemma eval_fold_bound (X Y : Z) : 1 <= X -> 1 <= Y -> forall (d : mdeg) (x : list rat) (c : rat) A D, Forall (fun e => (e <= 255)%nat) d -> Forall (rb X Y) x -> rb A D c -> 1 <= A ->
  A * X ^ Z.of_nat (tot d) <= i64_max -> D * Y ^ Z.of_nat (tot d) <= i64_max ->
  yields (foldM (fun acc (p : nat * rat) => let '(deg, v) := p in v <- rat_powi Debug v (Z.of_nat deg) ;; rat_mul Debug acc v) (combine d x) c)
    (rb (A * X ^ Z.of_nat (tot d)) (D * Y ^ Z.of_nat (tot d))).
Proof.
  intros HX HY. assert (P1 : forall e, 1 <= X ^ Z.of_nat e) by (intros e; rewrite <- (Z.pow_1_l (Z.of_nat e)) by lia; apply Z.pow_le_mono_l; lia).
  assert (P2 : forall e, 1 <= Y ^ Z.of_nat e) by (intros e; rewrite <- (Z.pow_1_l (Z.of_nat e)) by lia; apply Z.pow_le_mono_l; lia).
  induction d as [|e d IH]; intros x c A D Hd Hx Hc HA L1 L2.
  { apply yields_Ok. change (Z.of_nat (tot [])) with 0. rewrite !Z.pow_0_r, !Z.mul_1_r. exact Hc. }
  destruct x as [|v x].
  { apply yields_Ok. pose proof (rb_nonneg _ _ _ Hc). apply (rb_mono A D); [| |exact Hc].
    - specialize (P1 (tot (e :: d))). nia.
    - specialize (P2 (tot (e :: d))). nia. }
  inversion Hd as [|? ? He Hd']; subst. inversion Hx as [|? ? Hv Hx']; subst. cbn [combine foldM].
  change (tot (e :: d)) with (e + tot d)%nat in *. rewrite Nat2Z.inj_add, !Z.pow_add_r in * by lia. rewrite !Z.mul_assoc in *.
  pose proof (rb_nonneg _ _ _ Hc) as [_ HD]. pose proof (P1 e) as Q1. pose proof (P1 (tot d)) as Q2. pose proof (P2 e) as Q3. pose proof (P2 (tot d)) as Q4.
  assert (1 <= A * X ^ Z.of_nat e) by nia. assert (1 <= D * Y ^ Z.of_nat e) by nia.
  assert (A * X ^ Z.of_nat e <= i64_max) by nia. assert (D * Y ^ Z.of_nat e <= i64_max) by nia.
  assert (X ^ Z.of_nat e <= i64_max) by nia. assert (Y ^ Z.of_nat e <= i64_max) by nia.
  destruct (rb_powi X Y v (Z.of_nat e) Hv) as (w & Ew & Rw); [change (2 ^ 32) with 4294967296; lia|assumption|assumption|]. rewrite Ew. cbn [bind].
  destruct (rb_mul _ _ _ _ c w Hc Rw) as (c' & Ec & Rc'); [assumption|assumption|]. rewrite Ec. cbn [bind].
  apply (IH x c' (A * X ^ Z.of_nat e) (D * Y ^ Z.of_nat e)); assumption.
Qed.
Theorem C103_eval : forall (p : poly R) (x : list rat) A D X Y (g : nat), clean p -> pb A D p -> Forall (rb X Y) x -> 1 <= A -> 1 <= D -> 1 <= X -> 1 <= Y ->
  (forall t, In t p -> (mdeg_len (tdeg t) <= length x)%nat /\ (tot (tdeg t) <= g)%nat) ->
  sumA (length p) (A * X ^ Z.of_nat g) (D * Y ^ Z.of_nat g) <= i64_max -> sumD (length p) (D * Y ^ Z.of_nat g) <= i64_max ->
  exists r : rat, poly_eval p (x : list R) = Ok r /\ rb (sumA (length p) (A * X ^ Z.of_nat g) (D * Y ^ Z.of_nat g)) (sumD (length p) (D * Y ^ Z.of_nat g)) r.
Proof.
  intros p x A D X Y g [Wp _] Hp Hx HA HD HX HY Hg L1 L2. unfold poly_eval. change (@fsum R) with (rat_sum Debug).
  assert (P1 : forall e, 1 <= X ^ Z.of_nat e) by (intros e; rewrite <- (Z.pow_1_l (Z.of_nat e)) by lia; apply Z.pow_le_mono_l; lia).
  assert (P2 : forall e, 1 <= Y ^ Z.of_nat e) by (intros e; rewrite <- (Z.pow_1_l (Z.of_nat e)) by lia; apply Z.pow_le_mono_l; lia).
  assert (HA' : 0 <= A * X ^ Z.of_nat g) by (specialize (P1 g); nia). assert (HD' : 1 <= D * Y ^ Z.of_nat g) by (specialize (P2 g); nia).
  rewrite <- (map_length (fun t => term_eval t (x : list R)) p). apply rat_sum_bound; [assumption|assumption| |rewrite map_length; assumption|rewrite map_length; assumption].
  intros y Hy. apply in_map_iff in Hy. destruct Hy as (t & <- & Ht). destruct (Hg t Ht) as [G1 G2].
  pose proof (in_split _ _ Ht) as (l1 & l2 & Hs). assert (1 <= length p)%nat by (rewrite Hs, app_length; cbn; lia).
  pose proof (sumA_mono 1 (length p) _ _ HA' HD' ltac:(lia)) as M1. pose proof (sumD_mono 1 (length p) _ HD' ltac:(lia)) as M2. rewrite sumA_1 in M1. rewrite sumD_1 in M2.
  unfold pb in Hp. rewrite Forall_forall in Hp, Wp. destruct (Wp t Ht) as (_ & _ & _ & U).
  assert (Xm : X ^ Z.of_nat (tot (tdeg t)) <= X ^ Z.of_nat g) by (apply Z.pow_le_mono_r; lia).
  assert (Ym : Y ^ Z.of_nat (tot (tdeg t)) <= Y ^ Z.of_nat g) by (apply Z.pow_le_mono_r; lia).
  assert (A * X ^ Z.of_nat (tot (tdeg t)) <= A * X ^ Z.of_nat g) by (apply Z.mul_le_mono_nonneg_l; lia).
  assert (D * Y ^ Z.of_nat (tot (tdeg t)) <= D * Y ^ Z.of_nat g) by (apply Z.mul_le_mono_nonneg_l; lia).
  unfold term_eval. destruct (Nat.ltb_spec (length (x : list R)) (mdeg_len (tdeg t))) as [Hl|Hl]; [exfalso; change (fcar R) with rat in Hl; lia|].
  destruct (eval_fold_bound X Y HX HY (tdeg t) x (coef t) A D) as (r & Er & Rr); try assumption; [apply Hp; exact Ht|lia|lia|].
  exists r. split; [exact Er|]. revert Rr. apply rb_mono; lia.
Qed.

(** *** Matrices *)
Lemma dot_fold_bound {T : Type} (f : T -> res rat) (l : list T) A D : 0 <= A -> 1 <= D -> (forall x, In x l -> yields (f x) (rb A D)) ->
  sumA (length l) A D <= i64_max -> sumD (length l) D <= i64_max ->
  yields (foldM (fun acc x => y <- f x ;; rat_add Debug acc y) l rat_zero) (rb (sumA (length l) A D) (sumD (length l) D)).
Proof.
  intros HA HD H L1 L2.
  assert (G : forall l' k acc, (k + length l' = length l)%nat -> (forall y, In y l' -> In y l) -> rb (sumA k A D) (sumD k D) acc ->
    yields (foldM (fun acc x => y <- f x ;; rat_add Debug acc y) l' acc) (rb (sumA (length l) A D) (sumD (length l) D))).
  { induction l' as [|y l' IH]; intros k acc K Sub Ha; cbn [foldM].
    - apply yields_Ok. replace (length l) with k by (cbn in K |- *; lia). exact Ha.
    - eapply yields_bind; [|intros acc' Ha'; apply (IH (S k)); [cbn in K |- *; lia|intros; apply Sub; right; assumption|exact Ha']].
      eapply yields_bind; [apply H, Sub; left; reflexivity|]. intros b Rb.
      pose proof (sumA_mono (S k) (length l) A D HA HD ltac:(cbn in K |- *; lia)).
      pose proof (sumD_mono (S k) (length l) D HD ltac:(cbn in K |- *; lia)).
      apply rb_sum_step; [assumption|assumption|lia|lia]. }
  apply (G l 0%nat); [lia|auto|]. apply rb_zero; [unfold sumA; cbn; lia|apply sumD_pos; assumption].
Qed.
Definition shaped (a : mat R) : Prop := length (ments a) = (mrows a * mcols a)%nat.
Lemma foldM_ext {A B : Type} (f g : A -> B -> res A) l : (forall a b, f a b = g a b) -> forall a, foldM f l a = foldM g l a.
Proof. intros H. induction l as [|b l IH]; intros a; cbn [foldM]; [reflexivity|]. rewrite H. destruct (g a b); cbn; auto. Qed.

Theorem C103_mat_add_scale : forall (a b : mat R) (c : rat) A D B E, mb A D a -> mb B E b -> rb B E c -> mrows a = mrows b -> mcols a = mcols b ->
  (A * E + B * D <= i64_max -> D * E <= i64_max -> exists r, mat_add a b = Ok r /\ mb (A * E + B * D) (D * E) r) /\
  (A * B <= i64_max -> D * E <= i64_max -> exists r, mat_mul_scalar a (c : R) = Ok r /\ mb (A * B) (D * E) r).
Proof.
  intros a b c A D B E Ha Hb Hc Er Ec. unfold mb in *. rewrite Forall_forall in Ha, Hb. split; intros L1 L2.
  - unfold mat_add. rewrite Er, Ec, !Nat.eqb_refl. cbn [andb].
    eapply yields_bind; [apply (yields_mapM _ (rb (A * E + B * D) (D * E)))|intros es [H _]; apply yields_Ok; exact H].
    intros [x y] Hxy. cbn [fst snd]. apply rb_add; [apply Ha; eapply in_combine_l; eassumption|apply Hb; eapply in_combine_r; eassumption|exact L1|exact L2].
  - unfold mat_mul_scalar. eapply yields_bind; [apply (yields_mapM _ (rb (A * B) (D * E)))|intros es [H _]; apply yields_Ok; exact H].
    intros x Hx. apply rb_mul; [apply Ha; exact Hx|exact Hc|exact L1|exact L2].
Qed.
Theorem C103_dot : forall (a b : mat R) A D B E (k := Nat.min (length (ments a)) (length (ments b))), mb A D a -> mb B E b -> 0 <= A -> 1 <= D -> 0 <= B -> 1 <= E ->
  sumA k (A * B) (D * E) <= i64_max -> sumD k (D * E) <= i64_max ->
  exists r : rat, mat_dot a b = Ok r /\ rb (sumA k (A * B) (D * E)) (sumD k (D * E)) r.
Proof.
  intros a b A D B E k Ha Hb HA HD HB HE L1 L2. unfold mb in *. rewrite Forall_forall in Ha, Hb. unfold mat_dot.
  assert (K : length (combine (ments a) (ments b)) = k) by apply combine_length. rewrite <- K in *.
  assert (AB : 0 <= A * B) by (apply Z.mul_nonneg_nonneg; lia). assert (DE : 1 <= D * E) by nia.
  apply (dot_fold_bound (fun p : rat * rat => rat_mul Debug (fst p) (snd p))); try assumption.
  intros [x y] Hxy. cbn [fst snd].
  pose proof (in_split _ _ Hxy) as (l1 & l2 & Hs). assert (1 <= length (combine (ments a) (ments b)))%nat by (rewrite Hs, app_length; cbn; lia).
  pose proof (sumA_mono 1 _ _ _ AB DE H) as M1. pose proof (sumD_mono 1 _ _ DE H) as M2. rewrite sumA_1 in M1. rewrite sumD_1 in M2.
  apply rb_mul; [apply Ha; eapply in_combine_l; eassumption|apply Hb; eapply in_combine_r; eassumption|lia|lia].
Qed.
Lemma frob_is_dot (a : mat R) : mat_frobenius a = mat_dot a a.
Proof.
  unfold mat_frobenius, mat_dot. generalize (@f0 R) at 1 2. induction (ments a) as [|x l IH]; intros c; cbn [foldM combine fst snd]; [reflexivity|].
  destruct (fmul x x); cbn [bind]; [|reflexivity|reflexivity]. destruct (fadd c a0); cbn [bind]; auto.
Qed.
Theorem C103_frobenius : forall (a : mat R) A D, mb A D a -> 0 <= A -> 1 <= D ->
  sumA (length (ments a)) (A * A) (D * D) <= i64_max -> sumD (length (ments a)) (D * D) <= i64_max ->
  exists r : rat, mat_frobenius a = Ok r /\ rb (sumA (length (ments a)) (A * A) (D * D)) (sumD (length (ments a)) (D * D)) r.
Proof.
  intros a A D Ha HA HD L1 L2. rewrite frob_is_dot. rewrite <- (Nat.min_id (length (ments a))) in *. apply C103_dot; assumption.
Qed.
Theorem C103_mat_mul : forall (a b : mat R) A D B E, shaped a -> shaped b -> mcols a = mrows b -> mb A D a -> mb B E b -> 0 <= A -> 1 <= D -> 0 <= B -> 1 <= E ->
  sumA (mcols a) (A * B) (D * E) <= i64_max -> sumD (mcols a) (D * E) <= i64_max ->
  exists r, mat_mul a b = Ok r /\ mb (sumA (mcols a) (A * B) (D * E)) (sumD (mcols a) (D * E)) r.
Proof.
  intros a b A D B E Sa Sb Eq Ha Hb HA HD HB HE L1 L2. unfold mb in *. rewrite Forall_forall in Ha, Hb. unfold shaped in *.
  assert (AB : 0 <= A * B) by (apply Z.mul_nonneg_nonneg; lia). assert (DE : 1 <= D * E) by nia.
  unfold mat_mul. rewrite Eq, Nat.eqb_refl. unfold from_fnM. rewrite <- Eq.
  eapply yields_bind; [apply (yields_mapM _ (rb (sumA (mcols a) (A * B) (D * E)) (sumD (mcols a) (D * E))))|intros es [H _]; apply yields_Ok; exact H].
  intros [r c] Hrc. cbn [fst snd].
  assert (I : (r < mrows a)%nat /\ (c < mcols b)%nat).
  { apply box_In. exact Hrc. }
  destruct I as [Ir Ic].
  assert (Lr : ((r + 1) * mcols a <= length (ments a))%nat) by (rewrite Sa; apply Nat.mul_le_mono_r; lia).
  unfold mat_row_slice. destruct (Nat.leb_spec ((r + 1) * mcols a) (length (ments a))); [|lia]. cbn [bind].
  set (row := firstn (mcols a) (skipn (r * mcols a) (ments a))).
  assert (Lrow : length row = mcols a) by (unfold row; rewrite firstn_length, skipn_length; nia).
  assert (K : length (@combine rat nat row (seq 0 (mcols a))) = mcols a).
  { etransitivity; [apply combine_length|]. rewrite seq_length. change (length (row : list rat)) with (@length R row). lia. }
  set (f := fun p : rat * nat => y <- @mget R b (snd p) c ;; rat_mul Debug (fst p) (y : rat)).
  assert (EqF : forall acc p, (y <- @mget R b (snd p) c ;; q <- @fmul R (fst p) y ;; @fadd R acc q) = (y <- f p ;; rat_add Debug acc y)).
  { intros acc [x k]. unfold f. cbn [fst snd]. destruct (mget b k c); reflexivity. }
  rewrite (foldM_ext _ (fun (acc : rat) (p : rat * nat) => y <- f p ;; rat_add Debug acc y) _ EqF).
  pose proof (dot_fold_bound f (@combine rat nat row (seq 0 (mcols a))) (A * B) (D * E) AB DE) as G. rewrite K in G. apply G; try assumption.
  intros [x k] Hx. unfold f. cbn [fst snd].
  assert (Ix : In x (ments a)).
  { apply in_combine_l in Hx. unfold row in Hx. rewrite <- (firstn_skipn (r * mcols a) (ments a)). apply in_or_app. right.
    rewrite <- (firstn_skipn (mcols a)). apply in_or_app. left. exact Hx. }
  apply in_combine_r in Hx. apply in_seq in Hx. unfold mget, vget.
  assert (Lk : (k * mcols b + c < length (ments b))%nat) by (rewrite Sb, <- Eq; nia).
  destruct (nth_error (ments b) (k * mcols b + c)) as [y|] eqn:Ny; [|apply nth_error_None in Ny; lia]. cbn [bind].
  pose proof (sumA_mono 1 (mcols a) _ _ AB DE ltac:(lia)) as M1. pose proof (sumD_mono 1 (mcols a) _ DE ltac:(lia)) as M2. rewrite sumA_1 in M1. rewrite sumD_1 in M2.
  apply rb_mul; [apply Ha; exact Ix|apply Hb; eapply nth_error_In; eassumption|lia|lia].
Qed.

(** *** Integer coefficients: the bounds are A + B, n*A*B and n*A*X^g *)
Lemma sumA_int k A : sumA k A 1 = Z.of_nat k * A.
Proof. unfold sumA. rewrite Z.pow_1_l by lia. ring. Qed.
Lemma sumD_int k : sumD k 1 = 1.
Proof. unfold sumD. apply Z.pow_1_l. lia. Qed.
Definition ints (A : Z) (p : poly R) : Prop := Forall (fun t : term R => Z.abs (numer (@coef R t)) <= A /\ denom (@coef R t) = 1) p.
Lemma ints_pb A p : ints A p <-> pb A 1 p.
Proof. unfold ints, pb, rb. split; apply Forall_impl; intros t; lia. Qed.
Theorem C103_integers : forall (p q : poly R) A B, clean p -> clean q -> ints A p -> ints B q -> 0 <= A -> 0 <= B ->
  (A + B <= i64_max -> (exists r, poly_add p q = Ok r /\ ints (A + B) r) /\ exists r, poly_sub p q = Ok r /\ ints (A + B) r) /\
  (Z.of_nat (length p) * (A * B) <= i64_max -> deg_fit p q -> exists r, poly_mul Debug p q = Ok r /\ ints (Z.of_nat (length p) * (A * B)) r) /\
  forall (x : list Z) X (g : nat), 1 <= A -> 1 <= X -> Forall (fun v => Z.abs v <= X) x ->
    (forall t, In t p -> (mdeg_len (tdeg t) <= length x)%nat /\ (tot (tdeg t) <= g)%nat) -> Z.of_nat (length p) * (A * X ^ Z.of_nat g) <= i64_max ->
    exists n, poly_eval p (map (fun v => mkrat v 1) x : list R) = Ok (mkrat n 1) /\ Z.abs n <= Z.of_nat (length p) * (A * X ^ Z.of_nat g).
Proof.
  intros p q A B Cp Cq Hp Hq HA HB. apply ints_pb in Hp. apply ints_pb in Hq.
  assert (M1 : 1 <= i64_max) by (unfold i64_max; lia). split; [|split].
  - intros L. destruct (C103_add_sub p q A 1 B 1 Cp Cq Hp Hq) as ((r & Er & Br) & (s & Es & Bs) & _); try lia.
    replace (A * 1 + B * 1) with (A + B) in * by ring. rewrite Z.mul_1_r in *. split; [exists r|exists s]; (split; [assumption|apply ints_pb; assumption]).
  - intros L DF. destruct (C103_mul p q A 1 B 1 Cp Cq Hp Hq) as (r & Er & Br); try lia; try assumption; rewrite ?Z.mul_1_r, ?sumA_int, ?sumD_int in *; try lia.
    exists r. split; [exact Er|]. apply ints_pb. exact Br.
  - intros x X g HA1 HX Hx Hg L. destruct (C103_eval p (map (fun v => mkrat v 1) x) A 1 X 1 g Cp Hp) as (r & Er & Br); try lia.
    + apply Forall_forall. intros y Hy. apply in_map_iff in Hy. destruct Hy as (v & <- & Hv). rewrite Forall_forall in Hx. specialize (Hx v Hv). unfold rb. cbn. lia.
    + intros t Ht. rewrite map_length. apply Hg. exact Ht.
    + rewrite Z.pow_1_l, Z.mul_1_r, sumA_int by lia. exact L.
    + rewrite Z.pow_1_l, Z.mul_1_r, sumD_int by lia. exact M1.
    + rewrite Z.pow_1_l, Z.mul_1_r, sumA_int, sumD_int in Br by lia. destruct Br as [B1 B2]. exists (numer r). split; [|exact B1].
      rewrite Er. f_equal. destruct r as [n d]. cbn in *. f_equal. lia.
Qed.

(** x + 2y and 3x - 1; the bound A + B is sharp: at A + B = 2^63 the sum overflows *)
Definition bp : poly R := [@mkterm R (mkrat 1 1) [1%nat]; @mkterm R (mkrat 2 1) [0%nat; 1%nat]].
Definition bq : poly R := [@mkterm R (mkrat 3 1) [1%nat]; @mkterm R (mkrat (-1) 1) []].
Example C103_nonvacuous : ints 2 bp /\ ints 3 bq /\ deg_fit bp bq /\
  poly_mul Debug bp bq = Ok [@mkterm R (mkrat 3 1) [2%nat]; @mkterm R (mkrat (-1) 1) [1%nat]; @mkterm R (mkrat 6 1) [1%nat; 1%nat]; @mkterm R (mkrat (-2) 1) [0%nat; 1%nat]].
Proof.
  split; [|split; [|split]]; [repeat constructor; cbn; lia|repeat constructor; cbn; lia| |reflexivity].
  intros s t [<-|[<-|[]]] [<-|[<-|[]]] [|[|[|i]]]; cbn; lia.
Qed.
Example C103_clean : clean bp /\ clean bq.
Proof. split; apply ex_clean; reflexivity. Qed.
(** one past the bounds: A + B = 2^63 and n*A*B = 2^63 *)
Definition big (n : Z) : poly R := [@mkterm R (mkrat n 1) [1%nat]].
Example C103_sharp : let p := big i64_max in let q := big (2 ^ 62) in
  clean p /\ ints i64_max p /\ ints 1 (big 1) /\ poly_add p (big 1) = Panic Overflow /\
  clean q /\ ints (2 ^ 62) q /\ poly_mul Debug q (big 2) = Panic Overflow /\ exists r, poly_mul Debug q (big 1) = Ok r.
Proof.
  cbv zeta. repeat split; try (apply ex_clean; reflexivity); try (repeat constructor; cbn; unfold i64_max; lia); try reflexivity.
  - eexists. reflexivity.
Qed.
Definition bm : mat R := mkmat ([mkrat 1 2; mkrat (-3) 1; mkrat 2 1; mkrat 5 2] : list R) 2 2.
Example C103_mat_nonvacuous : shaped bm /\ mb 5 2 bm /\ sumA 2 (5 * 5) (2 * 2) = 200 /\ sumD 2 (2 * 2) = 16 /\
  mat_mul bm bm = Ok (mkmat ([mkrat (-23) 4; mkrat (-36) 4; mkrat 6 1; mkrat 1 4] : list R) 2 2) /\
  poly_eval bp ([mkrat 1 2; mkrat 2 3] : list R) = Ok (mkrat 11 6 : R).
Proof.
  split; [reflexivity|]. split; [unfold mb, rb; cbn; repeat (apply Forall_cons; [cbn; lia|]); apply Forall_nil|].
  split; [reflexivity|]. split; [reflexivity|]. split; reflexivity.
Qed.

Print Assumptions C103_add_sub.
Print Assumptions C103_mul.
Print Assumptions C103_eval.
Print Assumptions C103_mat_add_scale.
Print Assumptions C103_dot.
Print Assumptions C103_frobenius.
Print Assumptions C103_mat_mul.
Print Assumptions C103_integers.
