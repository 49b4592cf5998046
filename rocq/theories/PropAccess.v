(** * C122: writing through degs_mut and terms_mut; Zero and One of the primitive types *)
From Coq Require Import ZArith QArith Qcanon.
From Verif Require Import Base BaseLemmas IntModel RatModel FieldIface RatProofs MDegModel OrdModel PolyModel MonoSpec MDegProofs OrdProofs PolySpec PolyProofs PropPoly PropDiv
  FloatModel AccessModel.
From Coq Require Import Ring Field Setoid Morphisms Lia.
Local Open Scope nat_scope.

(** ** degs_mut *)
(** the exponents change as written; the entry written is the only one, and it stays within the length *)
Theorem C122_write_deg : forall d i x e, write_deg d i x = Ok e ->
  i < length d /\ length e = length d /\ (forall j, expo e j = if j =? i then x else expo d j).
Proof.
  intros d i x e. unfold write_deg. destruct (Nat.ltb_spec i (length d)) as [L|]; [|discriminate]. intros E. injection E as <-.
  split; [exact L|]. split; [apply list_set_length|]. intros j. unfold expo. rewrite nth_list_set by exact L. rewrite (Nat.eqb_sym i j). reflexivity.
Qed.
(** a multidegree without trailing zero stays so unless the last entry is made zero *)
Theorem C122_write_deg_canonical : forall d i x e, canonical d -> write_deg d i x = Ok e -> (canonical e <-> S i < length d \/ x <> 0).
Proof.
  intros d i x e C E. unfold write_deg in E. destruct (Nat.ltb_spec i (length d)) as [L|]; [|discriminate]. injection E as <-. unfold canonical in *.
  assert (Last : forall l : list nat, l <> [] -> last l 1 = nth (length l - 1) l 1).
  { clear. induction l as [|a l IH]; [congruence|]. intros _. destruct l as [|b l]; [reflexivity|].
    change (last (a :: b :: l) 1) with (last (b :: l) 1). rewrite IH by discriminate. cbn [length]. rewrite !Nat.sub_succ, !Nat.sub_0_r. reflexivity. }
  assert (N : d <> []) by (intros ->; cbn in L; lia).
  assert (N' : list_set d i x <> []) by (intros X; apply (f_equal (@length nat)) in X; rewrite list_set_length in X; cbn in X; lia).
  rewrite Last in C by exact N. rewrite Last by exact N'. rewrite list_set_length, nth_list_set by exact L.
  destruct (Nat.eqb_spec i (length d - 1)) as [Ei|Ni].
  - split; [right; assumption|]. intros [H|H]; [lia|exact H].
  - split; [left; lia|]. intros _. exact C.
Qed.
(** trim_zeros repairs it if an exponent is left ... *)
Theorem C122_write_deg_trim : forall d i x e j, write_deg d i x = Ok e -> expo e j <> 0 ->
  canonical (mdeg_trim_zeros e) /\ forall k, expo (mdeg_trim_zeros e) k = expo e k.
Proof.
  intros d i x e j _ N. destruct (trim_zeros_cases e) as [[Z _]|[_ ->]]; [|split; [apply ltrim_canonical|apply ltrim_expo]].
  exfalso. apply N. unfold expo. destruct (lt_dec j (length e)) as [L|L]; [|apply nth_overflow; lia]. rewrite Forall_forall in Z. apply Z. apply nth_In. exact L.
Qed.
(** ... and does nothing if not: the multidegree [0] that remains of x is different from the zero multidegree *)
Theorem C122_write_deg_trim_refuted : exists d e, mwf d /\ write_deg d 0 0 = Ok e /\ (forall k, expo e k = 0) /\
  mdeg_is_zero (mdeg_trim_zeros e) = false /\ mdeg_eqb (mdeg_trim_zeros e) mdeg_zero = false /\ mdeg_is_zero (mdeg_from_vec e) = true.
Proof.
  exists [1], [0]. split; [split; [discriminate|repeat constructor]|]. split; [reflexivity|]. split; [intros [|[|k]]; reflexivity|]. repeat split.
Qed.

(** ** terms_mut *)
Section TermsMut.
Context {F : FieldImpl} {K : MathField} (FS : FieldSpec F K).
Add Field Kf54 : (kth K).
Add Ring Pr54 : (@poly_ring K) (setoid (@peq_equiv K) (@poly_ring_ext K)).
Notation poly := (poly F).
Notation term := (term F).
Notation val := (ip FS).
Notation clean := (pwf FS).
(** the polynomial changes by the difference of the terms, and stays clean if and only if the new term is nonzero and has a degree of its own *)
Theorem C122_write_term : forall (p q : poly) i t0 t, clean p -> nth_error p i = Some t0 -> write_term p i t = Ok q ->
  peq (val q) (padd (psub (val p) (it FS t0)) (it FS t)) /\
  (clean q <-> (fwf FS (coef t) /\ den FS (coef t) <> k0 /\ mwf (tdeg t)) /\ forall j u, nth_error p j = Some u -> j <> i -> tdeg u <> tdeg t).
Proof.
  intros p q i t0 t W Hi E. unfold write_term in E. destruct (Nat.ltb_spec i (length p)) as [L|]; [|discriminate]. injection E as <-.
  destruct (nth_error_split p i Hi) as (l1 & l2 & -> & <-). rewrite list_set_split. split.
  - rewrite !ip_app, !ip_cons. ring.
  - destruct W as [Wt ND]. apply Forall_app in Wt as [W1 W2]. inversion W2 as [|? ? _ W3]; subst. rewrite map_app in ND. cbn [map] in ND. split.
    + intros [Wq Nq]. apply Forall_app in Wq as [_ Wq]. inversion Wq as [|? ? Wt _]; subst. split; [exact Wt|]. intros j u Hj Nj Eq.
      rewrite map_app in Nq. cbn [map] in Nq. apply NoDup_remove_2 in Nq. apply Nq. rewrite <- Eq, <- map_app. apply in_map.
      destruct (lt_eq_lt_dec j (length l1)) as [[Lt|E]|Gt]; [|contradiction|].
      * rewrite nth_error_app1 in Hj by exact Lt. apply nth_error_In in Hj. apply in_or_app. left. exact Hj.
      * rewrite nth_error_app2 in Hj by lia. destruct (j - length l1) as [|k] eqn:Ek; [lia|]. cbn in Hj. apply nth_error_In in Hj. apply in_or_app. right. exact Hj.
    + intros [Wt Ne]. split; [apply Forall_app; split; [exact W1|constructor; assumption]|]. rewrite map_app. cbn [map].
      apply NoDup_remove_1 in ND. apply (NoDup_Add (Add_app _ _ _)). split; [exact ND|]. rewrite <- map_app. intros I.
      apply in_map_iff in I as (u & Eu & I). apply in_app_or in I as [I|I]; apply In_nth_error in I as (j & Hj).
      * assert (Lj : j < length l1) by (apply nth_error_Some; congruence). apply (Ne j u); [rewrite nth_error_app1; assumption|lia|exact Eu].
      * apply (Ne (length l1 + S j) u); [rewrite nth_error_app2 by lia; replace (length l1 + S j - length l1) with (S j) by lia; exact Hj|lia|exact Eu].
Qed.
(** a loop over terms_mut that changes the coefficients to nonzero ones *)
Theorem C122_map_coefs : forall (f : F -> res F) (g : K -> K) (p : poly), clean p ->
  (forall c, fwf FS c -> den FS c <> k0 -> safe (f c) (fun c' => fwf FS c' /\ den FS c' = g (den FS c) /\ den FS c' <> k0)) ->
  safe (map_coefs f p) (fun q => clean q /\ forall m, (coeff (val p) m = k0 -> coeff (val q) m = k0) /\ (coeff (val p) m <> k0 -> coeff (val q) m = g (coeff (val p) m))).
Proof.
  intros f g p W Hf.
  assert (X : safe (map_coefs f p) (fun q => Forall2 (fun t u => tdeg u = tdeg t /\ fwf FS (coef u) /\ den FS (coef u) = g (den FS (coef t)) /\ den FS (coef u) <> k0) p q)).
  { destruct W as [W _]. induction W as [|t p (W1 & W2 & W3) _ IH]; [constructor|]. unfold map_coefs in *. cbn [mapM].
    apply (safe_bind _ _ (fun u => tdeg u = tdeg t /\ fwf FS (coef u) /\ den FS (coef u) = g (den FS (coef t)) /\ den FS (coef u) <> k0)).
    - eapply safe_bind; [apply (Hf _ W1 W2)|]. intros c (C1 & C2 & C3). cbn. auto.
    - intros u Hu. eapply safe_bind; [exact IH|]. intros q Hq. constructor; assumption. }
  eapply safe_mono; [exact X|]. intros q H. assert (D : map tdeg q = map tdeg p) by (clear - H; induction H as [|t u p q (E & _) _ IH]; cbn; congruence).
  assert (Wq : clean q).
  { split; [|rewrite D; apply W]. destruct W as [W _]. clear - H W. induction H as [|t u p q (E & H1 & _ & H2) _ IH]; constructor; [|inversion W; subst; auto].
    inversion W as [|? ? (_ & _ & M) _]; subst. split; [exact H1|]. split; [exact H2|]. rewrite E. exact M. }
  split; [exact Wq|]. intros m. split.
  - intros Z. destruct (kdec (coeff (val q) m) k0) as [|N]; [assumption|exfalso]. apply (pwf_support FS _ _ Wq) in N as (u & Iu & Mu).
    assert (Y : exists t, In t p /\ tdeg t = tdeg u) by (clear - H Iu; induction H as [|t u' p q (E & _) _ IH]; [destruct Iu|]; destruct Iu as [->|Iu]; [exists t; split; [left; reflexivity|congruence]|destruct (IH Iu) as (t' & A & B); exists t'; split; [right; exact A|exact B]]).
    destruct Y as (t & It & Et). apply (proj1 (proj2 (pwf_in FS _ t W It))). rewrite <- (pwf_coeff FS _ t W It). rewrite <- Z. f_equal. rewrite <- Mu, Et. reflexivity.
  - intros N. apply (pwf_support FS _ _ W) in N as (t & It & Mt).
    assert (Y : exists u, In u q /\ tdeg u = tdeg t /\ den FS (coef u) = g (den FS (coef t))) by (clear - H It; induction H as [|t' u p q (E & _ & G & _) _ IH]; [destruct It|]; destruct It as [->|It]; [exists u; split; [left; reflexivity|split; assumption]|destruct (IH It) as (u' & A & B); exists u'; split; [right; exact A|exact B]]).
    destruct Y as (u & Iu & Eu & Gu). pose proof (pwf_coeff FS _ u Wq Iu) as C1. pose proof (pwf_coeff FS _ t W It) as C2. rewrite Eu, Mt in C1. rewrite Mt in C2. rewrite C1, C2. exact Gu.
Qed.
End TermsMut.

(** there is no entry beyond the last one *)
Theorem C122_outside : forall {F : FieldImpl} (d : mdeg) (p : poly F) i x t,
  (length d <= i -> write_deg d i x = Panic UnwrapNone) /\ (length p <= i -> write_term p i t = Panic UnwrapNone).
Proof.
  intros F d p i x t. unfold write_deg, write_term. split; intros H; rewrite (proj2 (Nat.ltb_ge _ _) H); reflexivity.
Qed.

(** ** Zero and One of the primitive types *)
Local Open Scope Z_scope.
Definition in_prim (p : prim) (x : Z) : Prop := pmin p <= x <= pmax p.
(** is_zero and is_one recognise the neutral elements of + and *, in both build profiles *)
Theorem C122_primitives : forall p x, In p prims -> in_prim p x ->
  in_prim p prim_zero /\ in_prim p prim_one /\
  (prim_is_zero x = true <-> forall m y, in_prim p y -> prim_add p m x y = Ok y) /\
  (prim_is_one x = true <-> forall m y, in_prim p y -> prim_mul p m x y = Ok y).
Proof.
  intros p x Ip Hx. assert (R : pmin p <= 0 /\ 1 <= pmax p /\ (pmin p = 0 \/ pmin p = - pmax p - 1)).
  { cbn in Ip. repeat (destruct Ip as [<-|Ip]; [cbn; lia|]). destruct Ip. }
  assert (Fit : forall m y, in_prim p y -> prim_fit p m y = Ok y).
  { intros m y [A B]. unfold prim_fit. rewrite (proj2 (Z.leb_le _ _) A), (proj2 (Z.leb_le _ _) B). reflexivity. }
  unfold in_prim, prim_zero, prim_one, prim_is_zero, prim_is_one, prim_add, prim_mul in *. split; [lia|]. split; [lia|].
  assert (FD : forall z y, prim_fit p Debug z = Ok y -> z = y) by (intros z y; unfold prim_fit; destruct (_ && _); [intros E; injection E; auto|discriminate]).
  split; split.
  - intros E m y Hy. apply Z.eqb_eq in E. subst x. rewrite Z.add_0_l. apply Fit. exact Hy.
  - intros H. apply Z.eqb_eq. specialize (H Debug 0 ltac:(lia)). apply FD in H. unfold prim_zero. lia.
  - intros E m y Hy. apply Z.eqb_eq in E. unfold prim_one in E. subst x. rewrite Z.mul_1_l. apply Fit. exact Hy.
  - intros H. apply Z.eqb_eq. specialize (H Debug 1 ltac:(lia)). apply FD in H. unfold prim_one. lia.
Qed.
(** the ranges *)
Theorem C122_ranges : map (fun p => (pmin p, pmax p)) prims =
  [(0, 18446744073709551615); (0, 255); (0, 65535); (0, 4294967295); (0, 18446744073709551615); (0, 340282366920938463463374607431768211455);
   (-9223372036854775808, 9223372036854775807); (-128, 127); (-32768, 32767); (-2147483648, 2147483647); (-9223372036854775808, 9223372036854775807);
   (-170141183460469231731687303715884105728, 170141183460469231731687303715884105727)].
Proof. reflexivity. Qed.
(** sums and products outside the range panic with overflow checks; without, they are replaced by the value of the range that differs
    by a multiple of the number of values *)
Theorem C122_overflow : forall p x y, In p prims -> in_prim p x -> in_prim p y ->
  (forall z, (z = x + y -> prim_add p Debug x y = if (pmin p <=? z) && (z <=? pmax p) then Ok z else Panic Overflow) /\
             (z = x * y -> prim_mul p Debug x y = if (pmin p <=? z) && (z <=? pmax p) then Ok z else Panic Overflow)) /\
  (exists z k, prim_add p Release x y = Ok z /\ in_prim p z /\ z = x + y + k * (1 + pmax p - pmin p)) /\
  (exists z k, prim_mul p Release x y = Ok z /\ in_prim p z /\ z = x * y + k * (1 + pmax p - pmin p)).
Proof.
  intros p x y Ip Hx Hy. assert (R : 0 < pmax p - pmin p + 1).
  { cbn in Ip. repeat (destruct Ip as [<-|Ip]; [cbn; lia|]). destruct Ip. }
  assert (X : forall v, exists z k, prim_fit p Release v = Ok z /\ in_prim p z /\ z = v + k * (1 + pmax p - pmin p)).
  { intros v. unfold prim_fit, in_prim. destruct ((pmin p <=? v) && (v <=? pmax p)) eqn:E.
    - apply andb_true_iff in E as [A B]. apply Z.leb_le in A. apply Z.leb_le in B. exists v, 0. split; [reflexivity|]. lia.
    - exists ((v - pmin p) mod (pmax p - pmin p + 1) + pmin p), (- ((v - pmin p) / (pmax p - pmin p + 1))). split; [reflexivity|].
      pose proof (Z.mod_pos_bound (v - pmin p) _ R). pose proof (Z.div_mod (v - pmin p) (pmax p - pmin p + 1) ltac:(lia)). split; [lia|]. nia. }
  split; [intros z; split; intros ->; reflexivity|]. split; apply X.
Qed.
(** the float 0.0 == -0.0, so both are zero; nothing else is *)
Theorem C122_float_zero : forall x : float, SFeqb x fzero = true <-> x = S754_zero false \/ x = S754_zero true.
Proof.
  intros x. destruct x as [[]|[]| |[]]; cbn; split; intros H; auto; try discriminate; destruct H; discriminate.
Qed.

(** ** Concrete cases *)
Local Open Scope nat_scope.
Example C122_ex_deg : canonical [1; 2] /\ write_deg [1; 2] 0 3 = Ok [3; 2] /\ write_deg [1; 2] 1 0 = Ok [1; 0] /\ mdeg_trim_zeros [1; 0] = [1] /\
  write_deg [1; 2] 2 5 = Panic UnwrapNone.
Proof. split; [discriminate|]. repeat split. Qed.
(** x^2 + y with the second term changed to 3 x: clean; to 3 x^2: not *)
Example C122_ex_term : pwf rat_spec [ex_t 1 1 [2]; ex_t 1 1 [0; 1]] /\
  write_term [ex_t 1 1 [2]; ex_t 1 1 [0; 1]] 1 (ex_t 3 1 [1]) = Ok [ex_t 1 1 [2]; ex_t 3 1 [1]] /\
  pwf rat_spec [ex_t 1 1 [2]; ex_t 3 1 [1]] /\ ~ pwf rat_spec [ex_t 1 1 [2]; ex_t 3 1 [2]].
Proof.
  split; [apply ex_clean; reflexivity|]. split; [reflexivity|]. split; [apply ex_clean; reflexivity|]. intros [_ N]. inversion N as [|? ? H _]. apply H. left. reflexivity.
Qed.
Example C122_ex_overflow : In (unsigned 8) prims /\ in_prim (unsigned 8) 200%Z /\ prim_add (unsigned 8) Debug 200 100 = Panic Overflow /\ prim_add (unsigned 8) Release 200 100 = Ok 44%Z /\
  prim_mul (signed 8) Release 100 2 = Ok (-56)%Z.
Proof. split; [right; left; reflexivity|]. split; [split; cbn; lia|]. repeat split. Qed.
Example C122_ex_map : map_coefs (F := rat_impl Debug) (fun c => fmul c (mkrat 2 1 : rat_impl Debug)) [ex_t 1 3 [2]; ex_t 1 1 [0; 1]] = Ok [ex_t 2 3 [2]; ex_t 2 1 [0; 1]].
Proof. reflexivity. Qed.

Print Assumptions C122_write_deg.
Print Assumptions C122_write_deg_canonical.
Print Assumptions C122_write_deg_trim.
Print Assumptions C122_write_deg_trim_refuted.
Print Assumptions C122_write_term.
Print Assumptions C122_map_coefs.
Print Assumptions C122_primitives.
Print Assumptions C122_ranges.
Print Assumptions C122_overflow.
Print Assumptions C122_outside.
Print Assumptions C122_float_zero.
