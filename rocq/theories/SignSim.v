(** * Computations whose coefficients are 1 and -1 only.

    [zimpl 1] (IntSim.v) is arithmetic on -1, 0, 1 which stops at the first other result.  Its runs are compared with the
    runs over Rational, f32, f64 and any exact field: here all of them stop at the same places. *)
From Coq Require Import ZArith QArith Qcanon Lia Permutation.
From Verif Require Import Base BaseLemmas IntModel RatModel FieldIface IntProofs RatProofs NumFacts MDegModel OrdModel PolyModel CompModel
  MonoSpec MDegProofs OrdProofs PolySpec PolyProofs GroebnerSpec DivProofs GbProofs UtilModel MatModel MatProofs Param ParamMat Ideal FloatModel FloatExact FloatSim PropFloat PropMdeg
  BoundProofs PropBounds IntSim.
Local Open Scope Z_scope.

(** ** the integers with a bound as a coefficient type with exact values *)
Lemma zspec_add M a b : safe (zchk M (a + b)) (fun z => True /\ intq z = (intq a + intq b)%Qc).
Proof. unfold zchk. destruct (_ <=? _); [|exact I]. split; [exact I|]. symmetry. apply intq_add. Qed.
Lemma zdiv_spec M x y : y <> 0 -> safe (zdiv M x y) (fun z => x = z * y).
Proof.
  intros N. unfold zdiv. destruct (Z.eqb_spec y 0) as [|_]; [contradiction|]. destruct (Z.eqb_spec (y * (x / y)) x) as [E|_]; [|exact I].
  unfold zchk. destruct (_ <=? _); [|exact I]. cbn. lia.
Qed.
Lemma intq_neq0 y : intq y <> 0%Qc -> y <> 0.
Proof. intros N ->. apply N. reflexivity. Qed.
Definition zspec (M : Z) : FieldSpec (zimpl M) QcField.
Proof.
  refine {| fwf := fun _ : zimpl M => True; den := (fun z : Z => intq z) : zimpl M -> QcField |}; try exact I; try reflexivity.
  - intros x _. rewrite intq_eq0. cbn [feqb f0 ideal_impl]. apply keqb_iff.
  - intros x y _ _. apply zspec_add.
  - intros x y _ _. cbn. unfold zchk. destruct (_ <=? _); [|exact I]. split; [exact I|]. symmetry. apply intq_sub.
  - intros x _. cbn. unfold zchk. destruct (_ <=? _); [|exact I]. split; [exact I|]. symmetry. apply intq_opp.
  - intros x y _ _. cbn. unfold zchk. destruct (_ <=? _); [|exact I]. split; [exact I|]. symmetry. apply intq_mul.
  - intros x y _ _ N. eapply safe_mono; [apply zdiv_spec; apply intq_neq0; exact N|]. intros z E. split; [exact I|]. cbv beta in E. rewrite E.
    symmetry. apply intq_quot. apply intq_neq0. exact N.
  - intros x _ N. eapply safe_mono; [apply (zdiv_spec M 1 x); apply intq_neq0; exact N|]. intros z E. split; [exact I|]. cbv beta in E.
    rewrite <- (intq_quot z x) by (apply intq_neq0; exact N). rewrite <- E. change (intq 1) with 1%Qc. cbn. unfold Qcdiv. rewrite Qcmult_1_l. reflexivity.
  - intros l H. cbn [fsum zimpl].
    assert (G : forall a, safe (foldM (fun acc r => x <- r ;; zchk M (acc + x)) l a)
       (fun z => exists vs, l = map Ok vs /\ intq z = (intq a + ksum (K := QcField) (map (fun v : Z => intq v : QcField) vs))%Qc)).
    { induction H as [|r l Hr _ IH]; intros a; cbn [foldM].
      - cbn. exists []. split; [reflexivity|]. symmetry. apply Qcplus_0_r.
      - destruct r as [x|k|]; cbn in Hr.
        + cbn [bind]. unfold zchk at 1. destruct (_ <=? _); [|exact I]. cbn [bind]. eapply safe_mono; [apply IH|].
          intros z (vs & -> & E). exists (x :: vs). split; [reflexivity|]. rewrite E, <- intq_add, <- Qcplus_assoc. reflexivity.
        + destruct k; try contradiction; exact I.
        + contradiction. }
    eapply safe_mono; [apply (G 0)|]. intros z (vs & E & V). split; [exact I|]. exists vs. split; [exact E|]. rewrite V. apply Qcplus_0_l.
  - intros vs k rest _. cbn [fsum zimpl]. generalize 0 as a. induction vs as [|v vs IH]; intros a; cbn [map app foldM bind]; [left; reflexivity|].
    unfold zchk at 1 3. destruct (_ <=? _); [|right; reflexivity]. cbn [bind]. apply IH.
Defined.

(** ** The field K: -1, 0, 1 *)
Section K.
Context (K : MathField).
Add Field Kfsign : (kth K).
Definition sgn_in (z : Z) (x : K) : Prop := z = 0 /\ x = k0 \/ z = 1 /\ x = k1 \/ z = -1 /\ x = kopp k1.
Notation KI := (ideal_impl K).
Notation Zi := (zimpl 1).
Lemma k1n0 : @k1 K <> k0.
Proof. apply (F_1_neq_0 (kth K)). Qed.
Lemma kopp1n0 : @kopp K k1 <> k0.
Proof. intros E. apply k1n0. transitivity (kopp (kopp (@k1 K))); [ring|]. rewrite E. ring. Qed.
Lemma sgn_eq0 z x : sgn_in z x -> (z =? 0) = @feqb KI x f0.
Proof.
  intros H. cbn [feqb f0 ideal_impl]. unfold keqb. destruct (kdec x k0) as [E|N].
  - destruct H as [[-> _]|[[_ ->]|[_ ->]]]; [reflexivity|destruct (k1n0 E)|destruct (kopp1n0 E)].
  - destruct H as [[_ ->]|[[-> _]|[-> _]]]; [destruct (N eq_refl)|reflexivity|reflexivity].
Qed.
Lemma sgn_chk z (x : K) : (Z.abs z <= 1 -> sgn_in z x) -> rsim sgn_in (zchk 1 z) (Ok x).
Proof. intros H. apply zchk_sim. intros L. exists x. split; [reflexivity|auto]. Qed.
Ltac vals := cbn [Z.add Z.sub Z.mul Z.opp Z.pos_sub Pos.add Pos.mul] in *; unfold sgn_in;
  first [exfalso; cbn in *; lia
        |left; split; [reflexivity|first [ring|field; auto using k1n0, kopp1n0]]
        |right; left; split; [reflexivity|first [ring|field; auto using k1n0, kopp1n0]]
        |right; right; split; [reflexivity|first [ring|field; auto using k1n0, kopp1n0]]].
Lemma sgn_sim : FieldSim Zi KI sgn_in.
Proof.
  constructor.
  - left. auto.
  - right; left. auto.
  - intros x x' H. apply sgn_eq0. exact H.
  - intros x y x' y' Hx Hy. apply sgn_chk. intros L. destruct Hx as [[-> ->]|[[-> ->]|[-> ->]]], Hy as [[-> ->]|[[-> ->]|[-> ->]]]; vals.
  - intros x y x' y' Hx Hy. apply sgn_chk. intros L. destruct Hx as [[-> ->]|[[-> ->]|[-> ->]]], Hy as [[-> ->]|[[-> ->]|[-> ->]]]; vals.
  - intros x x' Hx. apply sgn_chk. intros L. destruct Hx as [[-> ->]|[[-> ->]|[-> ->]]]; vals.
  - intros x y x' y' Hx Hy. apply sgn_chk. intros L. destruct Hx as [[-> ->]|[[-> ->]|[-> ->]]], Hy as [[-> ->]|[[-> ->]|[-> ->]]]; vals.
  - intros x y x' y' Hx Hy N. pose proof (sgn_eq0 y y' Hy) as E. cbn [feqb f0 zimpl] in N. rewrite N in E. cbn [feqb f0 ideal_impl] in E.
    cbn [fdiv ideal_impl]. rewrite <- E. apply zdiv_sim; [apply Z.eqb_neq; exact N|]. intros k Ek L. eexists. split; [reflexivity|].
    destruct Hy as [[-> ->]|[[-> ->]|[-> ->]]]; [discriminate N| |].
    + replace k with x by lia. destruct Hx as [[-> ->]|[[-> ->]|[-> ->]]]; vals.
    + replace k with (- x) by lia. destruct Hx as [[-> ->]|[[-> ->]|[-> ->]]]; vals.
  - intros x x' Hx N. pose proof (sgn_eq0 x x' Hx) as E. cbn [feqb f0 zimpl] in N. rewrite N in E. cbn [feqb f0 ideal_impl] in E.
    cbn [finv ideal_impl]. rewrite <- E. apply zdiv_sim; [apply Z.eqb_neq; exact N|]. intros k Ek L. eexists. split; [reflexivity|].
    destruct Hx as [[-> ->]|[[-> ->]|[-> ->]]]; [discriminate N| |]; [replace k with 1 by lia|replace k with (-1) by lia]; vals.
  - intros x x' n _ _. exact I.
  - intros l l' H _. cbn [fsum zimpl ideal_impl].
    assert (G : forall a a', sgn_in a a' -> rsim sgn_in (foldM (fun acc r => x <- r ;; zchk 1 (acc + x)) l a)
       (vs <- mapM (fun r => r) l' ;; Ok (kadd a' (ksum vs)))).
    { induction H as [|r r' l l' Hr _ IH]; intros a a' Ha; cbn [foldM mapM].
      - cbn. replace (kadd a' k0) with a' by ring. exact Ha.
      - destruct r as [x|k|]; cbn in Hr.
        + destruct r' as [x'| |]; try contradiction. cbn [bind]. unfold zchk at 1. destruct (Z.leb_spec (Z.abs (a + x)) 1) as [L|_]; [|exact I]. cbn [bind].
          assert (Hs : sgn_in (a + x) (kadd a' x')).
          { destruct Hr as [[-> ->]|[[-> ->]|[-> ->]]], Ha as [[-> ->]|[[-> ->]|[-> ->]]]; vals. }
          specialize (IH _ _ Hs). destruct (mapM (fun r => r) l') as [vs| |]; cbn [bind] in *; [|exact IH|exact IH].
          replace (kadd a' (ksum (x' :: vs))) with (kadd (kadd a' x') (ksum vs)); [exact IH|]. unfold ksum. cbn [fold_right]. ring.
        + destruct k; try exact I; subst r'; reflexivity.
        + subst r'. reflexivity. }
    assert (G0 : sgn_in 0 k0) by (left; auto). specialize (G 0 k0 G0). revert G. generalize (foldM (fun acc r => x <- r ;; zchk 1 (acc + x)) l 0). intros w.
    assert (G1 : forall x : res (list K), rsim sgn_in w (vs <- x ;; Ok (kadd k0 (ksum vs))) -> rsim sgn_in w (vs <- x ;; Ok (ksum vs))).
    { intros [vs|k|]; cbn [bind]; [|exact (fun h => h)|exact (fun h => h)]. replace (kadd k0 (ksum vs)) with (ksum vs) by ring. exact (fun h => h). }
    exact (G1 (mapM (fun r => r) l')).
  - intros x y _ _ _ _. apply zchk_nf.
  - intros x x' n _ _. discriminate.
Qed.
End K.
