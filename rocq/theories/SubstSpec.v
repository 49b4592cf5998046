(** * Replacing a variable, ideals with an auxiliary variable.

    Intersection of ideals, saturation and radical membership as elimination of an extra variable; nothing here mentions the model. *)
From Coq Require Import List Arith Lia Ring Field Setoid Morphisms.
From Verif Require Import Base FieldIface MonoSpec PolySpec GroebnerSpec IdealSpec.
Import ListNotations.
Local Open Scope nat_scope.

Section SubstSpec.
Context {K : MathField}.
Add Field Kf29 : (kth K).
Add Ring Pr29 : (@poly_ring K) (setoid (@peq_equiv K) (@poly_ring_ext K)).
Notation spoly := (spoly K).
Implicit Types p q f g h : spoly.

Fixpoint ppow (p : spoly) (n : nat) : spoly := match n with 0 => pone | S n' => pmul p (ppow p n') end.

Section Var.
Context (i : nat).
Notation strip := (mstrip i).
Notation without := (without i).
(** the variable *)
Definition pvar : spoly := pterm k1 (mvar i 1).

(** the e-th power of the variable becomes [w e] *)
Definition pw (w : nat -> spoly) p : spoly := flat_map (fun t => tmul (fst t) (strip (snd t)) (w (mexp (snd t) i))) p.
Lemma ev_pw w p phi : ev (pw w p) phi = ev p (fun m => ev (w (mexp m i)) (fun b => phi (mmul (strip m) b))).
Proof.
  unfold pw. induction p as [|[c m] p IH]; [reflexivity|]. cbn [flat_map fst snd]. rewrite ev_app, ev_tmul, IH. reflexivity.
Qed.
Global Instance pw_proper w : Proper (peq ==> peq) (pw w).
Proof. intros p q E phi. rewrite !ev_pw. apply E. Qed.
Lemma pw_add w p q : peq (pw w (padd p q)) (padd (pw w p) (pw w q)).
Proof. intros phi. unfold padd. rewrite ev_pw, !ev_app, !ev_pw. reflexivity. Qed.
Lemma pw_opp w p : peq (pw w (popp p)) (popp (pw w p)).
Proof. intros phi. rewrite ev_pw, !ev_popp, !ev_pw. reflexivity. Qed.
Lemma pw_sub w p q : peq (pw w (psub p q)) (psub (pw w p) (pw w q)).
Proof. unfold psub. rewrite pw_add, pw_opp. reflexivity. Qed.
Lemma pw_ext_in (w w' : nat -> spoly) p : (forall m, In m (map snd p) -> peq (w (mexp m i)) (w' (mexp m i))) -> peq (pw w p) (pw w' p).
Proof. intros H phi. rewrite !ev_pw. apply ev_ext_in. intros m I. apply H. exact I. Qed.
Lemma pw_zero p : peq (pw (fun _ => pzero) p) pzero.
Proof. intros phi. rewrite ev_pw. cbn. apply ev_zero_fun. Qed.
Lemma pw_mul_without w q g : without g -> peq (pw w (pmul q g)) (pmul (pw w q) g).
Proof.
  intros W. destruct (pnorm g) as (g' & E & N). rewrite <- E. intros phi. rewrite ev_pw, !ev_pmul, ev_pw. apply ev_ext. intros a.
  rewrite ev_exchange. apply ev_ext_in. intros b I. apply in_map_iff in I as ([c b'] & <- & I). simpl. apply N in I as [C Z].
  assert (B : mexp b' i = 0) by (apply W; congruence). rewrite mmul_exp, B, Nat.add_0_r. apply ev_ext. intros x. f_equal.
  rewrite mstrip_mul by exact B. apply mono_ext. intros n. rewrite !mmul_exp. lia.
Qed.
Lemma pw_scale w q f : peq (pw (fun e => pmul (w e) f) q) (pmul (pw w q) f).
Proof.
  intros phi. rewrite ev_pw, ev_pmul, ev_pw. apply ev_ext. intros a. rewrite ev_pmul. apply ev_ext. intros b. apply ev_ext. intros c. f_equal.
  apply mono_ext. intros n. rewrite !mmul_exp. lia.
Qed.
Lemma pw_var w q : peq (pw w (pmul q pvar)) (pw (fun e => w (S e)) q).
Proof.
  intros phi. rewrite !ev_pw, ev_pmul. apply ev_ext. intros a. unfold pvar, pterm. cbn [ev fst snd fold_right map]. simpl.
  replace (mexp (mmul a (mvar i 1)) i) with (S (mexp a i)) by (rewrite mmul_exp, mvar_exp, Nat.eqb_refl; lia).
  assert (X : strip (mmul a (mvar i 1)) = strip a).
  { apply mono_ext. intros n. rewrite !mstrip_exp, mmul_exp, mvar_exp. destruct (Nat.eqb n i); lia. }
  rewrite X. ring.
Qed.
Lemma pw_one w : peq (pw w pone) (w 0).
Proof.
  intros phi. rewrite ev_pw. unfold pone. simpl. rewrite mone_exp.
  rewrite (ev_ext (w 0) _ phi); [ring|]. intros b. f_equal. apply mono_ext. intros n. rewrite mmul_exp, mstrip_exp, mone_exp. destruct (Nat.eqb n i); lia.
Qed.
Lemma pw_without w g : without g -> peq (pw w g) (pmul (w 0) g).
Proof.
  intros W. assert (E : peq g (pmul pone g)) by ring. rewrite E at 1. rewrite pw_mul_without by exact W. rewrite pw_one. reflexivity.
Qed.
Lemma without_one : without (@pone K).
Proof.
  intros m N. unfold pone in N. rewrite coeff_cons in N. destruct (mono_dec mone m) as [<-|]; [apply mone_exp|]. exfalso. apply N.
  change (coeff [] m) with (@k0 K). ring.
Qed.

(** ** Saturation: G and 1 - x_i f *)
Definition aux f : spoly := psub pone (pmul pvar f).
Lemma pow_var f : forall N p, in_ideal [aux f] (psub p (pmul (pmul (ppow pvar N) (ppow f N)) p)).
Proof.
  induction N as [|N IH]; intros p; cbn [ppow].
  - assert (E : peq (psub p (pmul (pmul pone pone) p)) pzero) by ring. rewrite E. apply in_ideal_zero.
  - assert (E : peq (psub p (pmul (pmul (pmul pvar (ppow pvar N)) (pmul f (ppow f N))) p))
      (padd (psub p (pmul (pmul (ppow pvar N) (ppow f N)) p)) (pmul (pmul (pmul (ppow pvar N) (ppow f N)) p) (aux f)))) by (unfold aux; ring).
    rewrite E. apply in_ideal_add; [apply IH|]. apply in_ideal_mul. apply in_ideal_gen. left. reflexivity.
Qed.
Lemma pow_bound q : exists N, forall m, In m (map snd q) -> mexp m i < N.
Proof.
  induction q as [|[c m] q (N & H)]; [exists 0; intros m []|]. exists (S (mexp m i) + N). intros x [<-|I]; cbn [fst snd]; [lia|]. specialize (H x I). lia.
Qed.
Lemma pow_bound_list (qs : list spoly) : exists N, forall q, In q qs -> forall m, In m (map snd q) -> mexp m i < N.
Proof.
  induction qs as [|q qs (N & H)]; [exists 0; intros q []|]. destruct (pow_bound q) as (M & HM). exists (M + N).
  intros x [<-|I] m Im; [specialize (HM m Im); lia|specialize (H x I m Im); lia].
Qed.
Lemma lincomb_app (qs qs' gs gs' : list spoly) : length qs = length gs -> peq (lincomb (qs ++ qs') (gs ++ gs')) (padd (lincomb qs gs) (lincomb qs' gs')).
Proof.
  revert gs. induction qs as [|q qs IH]; intros [|g gs] L; cbn in *; try discriminate; [unfold padd; reflexivity|].
  rewrite IH by lia. ring.
Qed.
Lemma ideal_app (gs gs' : list spoly) p : in_ideal (gs ++ gs') p <-> exists a b, in_ideal gs a /\ in_ideal gs' b /\ peq p (padd a b).
Proof.
  split.
  - intros (qs & L & E). rewrite app_length in L.
    assert (Lf : length (firstn (length gs) qs) = length gs) by (rewrite firstn_length; lia).
    exists (lincomb (firstn (length gs) qs) gs), (lincomb (skipn (length gs) qs) gs').
    split; [exists (firstn (length gs) qs); split; [exact Lf|reflexivity]|].
    split; [exists (skipn (length gs) qs); split; [rewrite skipn_length; lia|reflexivity]|].
    rewrite E. rewrite <- (firstn_skipn (length gs) qs) at 1. apply lincomb_app. exact Lf.
  - intros (a & b & A & B & E). rewrite E. apply in_ideal_add.
    + revert A. apply in_ideal_sub_ideal. intros g I. apply in_ideal_gen. apply in_or_app. left. exact I.
    + revert B. apply in_ideal_sub_ideal. intros g I. apply in_ideal_gen. apply in_or_app. right. exact I.
Qed.
Lemma pw_ideal w (G : list spoly) p : (forall g, In g G -> without g) -> in_ideal G p -> in_ideal G (pw w p).
Proof.
  intros W (qs & L & E). exists (map (pw w) qs). split; [rewrite map_length; exact L|]. rewrite E. clear E p. revert qs L.
  induction G as [|g G IH]; intros [|q qs] L; cbn [lincomb map length] in *; try discriminate; try reflexivity.
  rewrite pw_add. assert (Wg : without g) by (apply W; left; reflexivity). rewrite (pw_mul_without w q g Wg). injection L as L. rewrite (IH (fun h I => W h (or_intror I)) qs L). reflexivity.
Qed.
Theorem saturation (G : list spoly) f p : (forall g, In g G -> without g) -> without f -> without p ->
  (in_ideal (G ++ [aux f]) p <-> exists N, in_ideal G (pmul (ppow f N) p)).
Proof.
  intros WG Wf Wp. split.
  - intros H. apply ideal_app in H. destruct H as (a & b & A & (qs & L & B) & E). destruct qs as [|q [|]]; try discriminate. cbn in B.
    destruct (pow_bound q) as (N & HN). exists N. set (w := fun e => ppow f (N - e)).
    assert (X : peq (pmul (ppow f N) p) (pw w a)); [|rewrite X; apply pw_ideal; assumption].
    assert (Y : peq (pw w p) (pmul (ppow f N) p)).
    { rewrite (pw_without w p Wp). unfold w. rewrite Nat.sub_0_r. reflexivity. }
    rewrite <- Y, E, B, !pw_add.
    assert (Z : peq (pw w (pmul q (aux f))) pzero).
    { assert (E1 : peq (pmul q (aux f)) (psub q (pmul (pmul q pvar) f))) by (unfold aux; ring). rewrite E1, pw_sub, (pw_mul_without w _ f Wf), pw_var.
      rewrite <- (pw_scale (fun e => w (S e)) q f).
      assert (E2 : peq (pw w q) (pw (fun e => pmul (w (S e)) f) q)).
      { apply pw_ext_in. intros m I. specialize (HN m I). unfold w. replace (N - mexp m i) with (S (N - S (mexp m i))) by lia. cbn [ppow]. ring. }
      rewrite E2. ring. }
    rewrite Z. change (pw w (@pzero K)) with (@pzero K). ring.
  - intros (N & H). apply ideal_app. exists (pmul (ppow pvar N) (pmul (ppow f N) p)), (psub p (pmul (pmul (ppow pvar N) (ppow f N)) p)).
    split; [apply in_ideal_mul; exact H|]. split; [apply pow_var|]. ring.
Qed.
(** f lies in the radical iff 1 is in the extended ideal *)
Theorem radical (G : list spoly) f : (forall g, In g G -> without g) -> without f ->
  (in_ideal (G ++ [aux f]) pone <-> exists N, in_ideal G (ppow f N)).
Proof.
  intros WG Wf. rewrite (saturation G f pone WG Wf without_one). split; intros (N & H); exists N.
  - assert (E : peq (pmul (ppow f N) pone) (ppow f N)) by ring. rewrite <- E. exact H.
  - assert (E : peq (pmul (ppow f N) pone) (ppow f N)) by ring. rewrite E. exact H.
Qed.

(** ** Intersection: x_i f for f in the first list, (1 - x_i) g for g in the second *)
Definition mixed (G H : list spoly) : list spoly := map (pmul pvar) G ++ map (pmul (psub pone pvar)) H.
Lemma ideal_map_mul c (G : list spoly) p : in_ideal (map (pmul c) G) p <-> exists a, in_ideal G a /\ peq p (pmul c a).
Proof.
  split.
  - intros (qs & L & E). rewrite map_length in L. exists (lincomb qs G). split; [exists qs; split; [exact L|reflexivity]|]. rewrite E. clear E p. revert qs L.
    induction G as [|g G IH]; intros [|q qs] L; cbn [lincomb map length] in *; try discriminate; [ring|]. rewrite IH by lia. ring.
  - intros (a & (qs & L & E) & E'). exists qs. split; [rewrite map_length; exact L|]. rewrite E', E. clear E E' a p. revert qs L.
    induction G as [|g G IH]; intros [|q qs] L; cbn [lincomb map length] in *; try discriminate; [ring|]. rewrite <- IH by lia. ring.
Qed.
Theorem intersection (G H : list spoly) p : (forall g, In g G -> without g) -> (forall h, In h H -> without h) -> without p ->
  (in_ideal (mixed G H) p <-> in_ideal G p /\ in_ideal H p).
Proof.
  intros WG WH Wp. unfold mixed. rewrite ideal_app. split.
  - intros (a & b & A & B & E). apply ideal_map_mul in A. destruct A as (a' & A & Ea). apply ideal_map_mul in B. destruct B as (b' & B & Eb).
    set (one := fun _ : nat => @pone K). set (z := fun e : nat => match e with 0 => @pone K | S _ => pzero end). split.
    + assert (X : peq p (pw one a')); [|rewrite X; apply pw_ideal; assumption].
      assert (Y : peq p (pw one p)) by (rewrite (pw_without one p Wp); unfold one; ring).
      rewrite Y, E, Ea, Eb. rewrite pw_add.
      assert (E1 : peq (pmul pvar a') (pmul a' pvar)) by ring. assert (E2 : peq (pmul (psub pone pvar) b') (psub b' (pmul b' pvar))) by ring.
      rewrite E1, E2, pw_sub, !pw_var. change (fun e => one (S e)) with one. ring.
    + assert (X : peq p (pw z b')); [|rewrite X; apply pw_ideal; assumption].
      assert (Y : peq p (pw z p)) by (rewrite (pw_without z p Wp); unfold z; ring).
      rewrite Y, E, Ea, Eb. rewrite pw_add.
      assert (E1 : peq (pmul pvar a') (pmul a' pvar)) by ring. assert (E2 : peq (pmul (psub pone pvar) b') (psub b' (pmul b' pvar))) by ring.
      rewrite E1, E2, pw_sub, !pw_var. change (fun e => z (S e)) with (fun _ : nat => @pzero K). rewrite !pw_zero. ring.
  - intros [A B]. exists (pmul pvar p), (pmul (psub pone pvar) p). split; [apply ideal_map_mul; exists p; split; [exact A|reflexivity]|].
    split; [apply ideal_map_mul; exists p; split; [exact B|reflexivity]|]. ring.
Qed.
End Var.
End SubstSpec.
