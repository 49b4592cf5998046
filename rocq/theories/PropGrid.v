(** * C134: systems whose unknowns have finitely many candidate values

    The generators contain, for each variable x_i, the product of x_i - v over a list of different candidate values v: equations for
    0/1 unknowns (x^2 - x), colourings, and so on.  [vals] lists the candidates of x_0, x_1, ... *)
From Verif Require Import Base BaseLemmas IntModel RatModel FieldIface RatProofs MDegModel OrdModel PolyModel CompModel
  MonoSpec MDegProofs OrdProofs PolySpec PolyProofs GroebnerSpec DivProofs DivSpec GbProofs CompMono PropPoly PropDiv PropGb IdealSpec PropIdeal SubstSpec StdSpec
  PropIdealOps PropStd GridSpec.
From Coq Require Import Ring Field Setoid Morphisms Permutation Lia.
Local Open Scope nat_scope.

Section PropGrid.
Context {F : FieldImpl} {K : MathField} (FS : FieldSpec F K).
Add Field Kf62 : (kth K).
Add Ring Pr62 : (@poly_ring K) (setoid (@peq_equiv K) (@poly_ring_ext K)).
Notation poly := (poly F).
Notation val := (ip FS).
Notation clean := (pwf FS).
Notation nonzero := (fun g : poly => g <> []).
Notation vanishes x := (fun g : poly => exists v, poly_eval g x = Ok v /\ den FS v = k0).
Notation evaluates x := (fun g : poly => exists v, poly_eval g x = Ok v).
Notation vars n := (fun g : poly => forall t, In t g -> length (tdeg t) <= n).

(** the product of x_i - v over the values, computed with the operators of Polynomial *)
Fixpoint product_poly (i : nat) (vs : list F) : res poly :=
  match vs with
  | [] => Ok poly_one
  | v :: vs' => q <- product_poly i vs' ;; l <- poly_sub (poly_var i 1) (poly_from_coef v) ;; poly_mul Debug l q
  end.
(** [g] has the coefficients of the product of x_i - v over the values *)
Definition is_product (i : nat) (vs : list F) (g : poly) : Prop := forall m, coeff (val g) m = coeff (prodlin i (map (den FS) vs)) m.
Theorem C134_product : forall i vs g, Forall (fwf FS) vs -> product_poly i vs = Ok g -> clean g /\ is_product i vs g.
Proof.
  intros i vs g W E. enough (X : clean g /\ peq (val g) (prodlin i (map (den FS) vs))) by (split; [apply X|]; intros m; rewrite (proj2 X); reflexivity).
  revert g E. induction W as [|v vs Wv W IH]; intros g E; cbn [product_poly map prodlin] in *.
  - injection E as <-. split; [apply pwf_single; apply term_one_wf|]. unfold poly_one, poly_term. rewrite ip_single, it_term_one. reflexivity.
  - apply bind_Ok in E as (q & Eq & E). apply bind_Ok in E as (l & El & E). destruct (IH q Eq) as [Wq Vq].
    destruct (clean_var FS i) as [Wx Vx]. destruct (poly_from_coef_ok FS v Wv) as [Wc Vc].
    destruct (safe_val _ _ _ (poly_sub_ok FS (poly_var i 1) (poly_from_coef v) Wx (clean_f0 FS _ Wc)) El) as [Wl Vl].
    destruct (safe_val _ _ _ (poly_mul_ok FS l q (clean_f0 FS l Wl) Wq) E) as [Wg Vg].
    split; [exact Wg|]. rewrite Vg, Vl, Vq, Vx, Vc. unfold plin. reflexivity.
Qed.

(** the points of the grid *)
Definition grid_point (vals : list (list F)) (x : list F) : Prop := Forall2 (fun v vs => In v vs) x vals.
(** for each variable the generators contain the product of x_i - v over different candidates *)
Definition grid_system (vals : list (list F)) (gens : list poly) : Prop :=
  (forall i, i < length vals -> exists g, In g gens /\ is_product i (nth i vals []) g) /\
  Forall (Forall (fwf FS)) vals /\ Forall (fun vs => NoDup (map (den FS) vs)) vals.

Lemma peval_agree n (x y : nat -> K) (p : spoly K) : svars n p -> (forall i, i < n -> x i = y i) -> peval x p = peval y p.
Proof.
  intros V H. destruct (pnorm p) as (p' & E & N). unfold peval. rewrite <- (E (mval x)), <- (E (mval y)). apply ev_ext_in. intros m I.
  apply in_map_iff in I as ([c m'] & <- & I). apply N in I as [C Z]. cbn [snd]. assert (Vm : mvars n m') by (apply V; rewrite C; exact Z).
  rewrite !(mval_up_eq _ _ n) by exact Vm. clear - H. induction n as [|n IH]; cbn [mval_up]; [reflexivity|]. rewrite IH by (intros; apply H; lia). rewrite H by lia. reflexivity.
Qed.
Lemma grid_den vals x : grid_point vals x -> on_grid (length vals) (fun i => map (den FS) (nth i vals [])) (pt FS x).
Proof.
  intros H i Hi. unfold pt. apply in_map. revert i Hi. induction H as [|v vs x vals I H IH]; intros i Hi; cbn [length] in Hi; [lia|].
  destruct i as [|i]; cbn [nth]; [exact I|]. apply IH. lia.
Qed.
Lemma grid_lift : forall vals (x : nat -> K), on_grid (length vals) (fun i => map (den FS) (nth i vals [])) x ->
  exists y, grid_point vals y /\ forall i, i < length vals -> pt FS y i = x i.
Proof.
  induction vals as [|vs vals IH]; intros x H; [exists []; split; [constructor|intros i Hi; cbn in Hi; lia]|].
  destruct (IH (fun i => x (S i))) as (y & G & E); [intros i Hi; apply (H (S i)); cbn [length]; lia|].
  specialize (H 0 ltac:(cbn; lia)). cbn [nth] in H. apply in_map_iff in H as (v & Ev & Iv). exists (v :: y). split; [constructor; assumption|].
  intros [|i] Hi; [exact Ev|]. cbn [length] in Hi. apply (E i). lia.
Qed.
Lemma grid_wf vals x : Forall (Forall (fwf FS)) vals -> grid_point vals x -> Forall (fwf FS) x.
Proof.
  intros W H. induction H as [|v vs x vals I H IH]; [constructor|]. inversion W as [|? ? W1 W2]; subst. constructor; [|apply IH; exact W2].
  rewrite Forall_forall in W1. apply W1. exact I.
Qed.

Section Run.
Context {O : ord_impl} (OS : OrderSpec O).
Notation lt := (olt OS).
Let laws := olaws _ OS.
Variables (fuel : nat) (vals : list (list F)) (gens out : list poly).
Let n := length vals.
Hypothesis W : Forall clean gens.
Hypothesis NZ : Forall nonzero gens.
Hypothesis V : Forall (vars n) gens.
Hypothesis GS : grid_system vals gens.
Hypothesis E : buchberger_algorithm Debug O fuel gens = Ok out.

Lemma grid_ideal f : clean f -> vars n f ->
  (in_ideal (map val gens) (val f) <-> forall x, grid_point vals x -> (forall g, In g gens -> peval (pt FS x) (val g) = k0) -> peval (pt FS x) (val f) = k0).
Proof.
  intros Wf Vf. destruct GS as (HP & Wv & ND).
  assert (VG : forall g, In g (map val gens) -> svars n g).
  { intros g I. apply in_map_iff in I as (g0 & <- & I). rewrite Forall_forall in W, V. apply (vars_svars FS); [apply W|apply V]; exact I. }
  assert (VF : svars n (val f)) by (apply (vars_svars FS); assumption).
  rewrite (grid_radical n (map val gens) (fun i => map (den FS) (nth i vals [])) VG).
  - split; intros H x Gx Zx.
    + apply H; [apply grid_den; exact Gx|]. intros g I. apply in_map_iff in I as (g0 & <- & I). apply Zx. exact I.
    + destruct (grid_lift vals x Gx) as (y & Gy & Ey). rewrite (peval_agree n x (pt FS y) (val f) VF) by (intros i Hi; symmetry; apply Ey; exact Hi).
      apply H; [exact Gy|]. intros g I. rewrite <- (Zx (val g)) by (apply in_map; exact I). apply (peval_agree n); [apply VG; apply in_map; exact I|exact Ey].
  - intros i Hi. rewrite Forall_forall in ND. apply ND. apply nth_In. exact Hi.
  - intros i Hi. destruct (HP i Hi) as (g & I & Hg). apply (in_ideal_gen_eq _ _ (val g)); [apply in_map; exact I|]. apply peq_coeff. intros m. symmetry. apply Hg.
  - exact VF.
Qed.

Lemma eval_zero x g : Forall (fwf FS) x -> clean g -> evaluates x g -> (vanishes x g <-> peval (pt FS x) (val g) = k0).
Proof.
  intros Wx Wg (v & Ev). split.
  - intros (v' & Ev' & Z). rewrite <- Z. symmetry. apply (eval_val FS g x v'); assumption.
  - intros Z. exists v. split; [exact Ev|]. rewrite <- Z. apply (eval_val FS g x v); assumption.
Qed.
Lemma eval_zeros x : Forall (fwf FS) x -> Forall (evaluates x) gens -> (Forall (vanishes x) gens <-> forall g, In g gens -> peval (pt FS x) (val g) = k0).
Proof.
  intros Wx Ev. pose proof W as W'. rewrite Forall_forall in W', Ev |- *. split; intros H g I; apply (eval_zero x g Wx (W' g I) (Ev g I)); apply H; exact I.
Qed.

(** the remainder is zero exactly for the polynomials that vanish at all solutions *)
Theorem C134_membership : forall fuel' f r qs, clean f -> vars n f -> divide Debug O fuel' f out = Ok (r, qs) ->
  (forall x, grid_point vals x -> Forall (evaluates x) (f :: gens)) ->
  (r = [] <-> forall x, grid_point vals x -> Forall (vanishes x) gens -> vanishes x f).
Proof.
  intros fuel' f r qs Wf Vf Ed Ev. destruct (algorithm_run FS OS fuel gens out W NZ E) as (Wo & SI & GB & _).
  rewrite (C45_membership FS OS fuel' f out r qs Wf Wo GB Ed). rewrite (SI (val f)), (grid_ideal f Wf Vf).
  split; intros H x Gx Zx; pose proof (Ev x Gx) as X; inversion X as [|? ? Ef Eg]; subst; pose proof (grid_wf vals x (proj1 (proj2 GS)) Gx) as Wx.
  - apply (eval_zero x f Wx Wf Ef). apply H; [exact Gx|]. apply (eval_zeros x Wx Eg). exact Zx.
  - apply (eval_zero x f Wx Wf Ef). apply H; [exact Gx|]. apply (eval_zeros x Wx Eg). exact Zx.
Qed.

Lemma grid_search (P : list F -> Prop) : forall vs, (forall x, grid_point vs x -> P x \/ ~ P x) -> (exists x, grid_point vs x /\ P x) \/ (forall x, grid_point vs x -> ~ P x).
Proof.
  intros vs. revert P. induction vs as [|ws vs IH]; intros P D.
  - destruct (D [] ltac:(constructor)) as [Y|N]; [left; exists []; split; [constructor|exact Y]|]. right. intros x Gx. inversion Gx; subst. exact N.
  - assert (X : forall us, (forall u, In u us -> In u ws) -> (exists x, grid_point (ws :: vs) x /\ P x) \/ (forall u x, In u us -> grid_point vs x -> ~ P (u :: x))).
    { induction us as [|u us IHu]; intros Hu; [right; intros u x []|]. destruct IHu as [Y|N]; [intros; apply Hu; right; assumption|left; exact Y|].
      destruct (IH (fun x => P (u :: x))) as [(x & Gx & Px)|N'].
      - intros x Gx. apply D. constructor; [apply Hu; left; reflexivity|exact Gx].
      - left. exists (u :: x). split; [constructor; [apply Hu; left; reflexivity|exact Gx]|exact Px].
      - right. intros u' x [<-|I] Gx; [apply N'; exact Gx|apply N; assumption]. }
    destruct (X ws) as [Y|N]; [auto|left; exact Y|]. right. intros x Gx. inversion Gx as [|u ? y ? I G]; subst. apply N; assumption.
Qed.

(** the result is a single constant exactly if the system has no solution; otherwise there is one *)
Theorem C134_solvable : (forall x, grid_point vals x -> Forall (evaluates x) gens) ->
  ((exists t, out = [[t]] /\ tdeg t = []) <-> forall x, grid_point vals x -> ~ Forall (vanishes x) gens) /\
  ((exists t, out = [[t]] /\ tdeg t = []) \/ exists x, grid_point vals x /\ Forall (vanishes x) gens).
Proof.
  intros Ev.
  assert (A : (exists t, out = [[t]] /\ tdeg t = []) <-> forall x, grid_point vals x -> ~ Forall (vanishes x) gens).
  { rewrite <- (proj2 (C94_unit_ideal FS OS fuel gens out W NZ E)). destruct (clean_one FS) as [W1 V1]. rewrite <- V1.
    rewrite (grid_ideal poly_one W1) by (intros t [<-|[]]; cbn; lia).
    assert (One : forall x, peval (pt FS x) (val poly_one) <> k0).
    { intros x Z. unfold peval in Z. rewrite (V1 (mval (pt FS x))) in Z. rewrite ev_hom_one in Z by apply mval_multiplicative. exact (F_1_neq_0 (kth K) Z). }
    split; intros H x Gx Zx; pose proof (grid_wf vals x (proj1 (proj2 GS)) Gx) as Wx.
    - apply (One x). apply H; [exact Gx|]. apply (eval_zeros x Wx (Ev x Gx)). exact Zx.
    - exfalso. apply (H x Gx). apply (eval_zeros x Wx (Ev x Gx)). exact Zx. }
  split; [exact A|]. rewrite A. destruct (grid_search (fun x => Forall (vanishes x) gens) vals) as [Y|N]; [|right; exact Y|left; exact N].
  intros x Gx. pose proof (grid_wf vals x (proj1 (proj2 GS)) Gx) as Wx. rewrite (eval_zeros x Wx (Ev x Gx)).
  clear. induction gens as [|g gs IH]; [left; intros g []|]. destruct IH as [Y|N]; [|right; intros H; apply N; intros h I; apply H; right; exact I].
  destruct (kdec (peval (pt FS x) (val g)) k0) as [Z|Z]; [left; intros h [<-|I]; auto|right; intros H; apply Z; apply H; left; reflexivity].
Qed.

(** there are as many solutions as standard monomials: [xs] lists the solutions, [L] the standard monomials, each once *)
Theorem C134_count : forall xs L, (forall x, grid_point vals x -> Forall (evaluates x) gens) ->
  Forall (fun x => grid_point vals x /\ Forall (vanishes x) gens) xs -> ForallOrdPairs (differ FS n) xs ->
  (forall x, grid_point vals x -> Forall (vanishes x) gens -> exists y, In y xs /\ ~ differ FS n x y) ->
  NoDup L -> (forall m, In m L <-> std lt n (map val out) m) -> length xs = length L.
Proof.
  intros xs L Ev HX HD Full ND HL. apply Nat.le_antisymm.
  - apply (C108_zeros FS O OS fuel n gens out xs L W NZ V); auto.
    + eapply Forall_impl; [|exact HX]. intros x [Gx _]. apply (grid_wf vals x (proj1 (proj2 GS)) Gx).
    + intros m. apply HL.
    + eapply Forall_impl; [|exact HX]. intros x [_ Zx]. exact Zx.
  - destruct (algorithm_run FS OS fuel gens out W NZ E) as (Wo & SI & GB & _).
    assert (VG : forall g, In g (map val gens) -> svars n g).
    { intros g I. apply in_map_iff in I as (g0 & <- & I). rewrite Forall_forall in W, V. apply (vars_svars FS); [apply W|apply V]; exact I. }
    destruct GS as (HP & Wv & NDv).
    apply (grid_count n (map val out) (fun i => map (den FS) (nth i vals [])) (out_vars FS OS fuel n gens out W NZ V E)) with (lt := lt) (X := fun k => pt FS (nth k xs [])); auto.
    + intros i Hi. rewrite Forall_forall in NDv. apply NDv. apply nth_In. exact Hi.
    + intros i Hi. apply SI. destruct (HP i Hi) as (g & I & Hg). apply (in_ideal_gen_eq _ _ (val g)); [apply in_map; exact I|]. apply peq_coeff. intros m. symmetry. apply Hg.
    + intros m. apply HL.
    + intros x Gx Zx. destruct (grid_lift vals x Gx) as (y & Gy & Ey).
      assert (Zy : Forall (vanishes y) gens).
      { apply (eval_zeros y (grid_wf vals y Wv Gy) (Ev y Gy)). intros g I. rewrite (peval_agree n _ x) by (try apply VG; try apply in_map; auto).
        apply (peval_ideal x (map val out)); [exact Zx|]. apply SI. apply in_ideal_gen. apply in_map. exact I. }
      destruct (Full y Gy Zy) as (z & Iz & Nz). apply (In_nth _ _ []) in Iz as (k & Hk & Ek). exists k. split; [exact Hk|]. intros i Hi. rewrite Ek, <- (Ey i Hi). unfold pt.
      destruct (kdec (den FS (nth i z f0)) (den FS (nth i y f0))) as [Q|Q]; [exact Q|]. exfalso. apply Nz. exists i. split; [exact Hi|]. intros Q'. apply Q. symmetry. exact Q'.
Qed.
End Run.
End PropGrid.

(** ** Concrete cases: colouring the corners of a graph with 1 and -1 so that neighbours differ (x + y = 0) *)
Notation RR := (rat_impl Debug).
Definition ex_pm : list RR := [mkrat 1 1 : RR; mkrat (-1) 1 : RR].
Definition ex_sq (i : nat) : poly RR := [ex_t 1 1 (repeat 0 i ++ [2]); ex_t (-1) 1 []].
Definition ex_edge (i j : nat) : poly RR := [ex_t 1 1 (repeat 0 i ++ [1]); ex_t 1 1 (repeat 0 j ++ [1])].
Definition ex_path : list (poly RR) := [ex_sq 0; ex_sq 1; ex_sq 2; ex_edge 0 1; ex_edge 1 2].
Definition ex_triangle : list (poly RR) := ex_path ++ [ex_edge 0 2].
Example C134_ex_run : buchberger_algorithm Debug lex_cmp 40 ex_triangle = Ok [[ex_t 1 1 []]] /\
  buchberger_algorithm Debug lex_cmp 40 ex_path = Ok [[ex_t 1 1 [0; 0; 2]; ex_t (-1) 1 []]; [ex_t 1 1 [0; 1]; ex_t 1 1 [0; 0; 1]]; [ex_t 1 1 [1]; ex_t (-1) 1 [0; 0; 1]]].
Proof. split; reflexivity. Qed.
Example C134_ex_product : product_poly (F := RR) 1 ex_pm = Ok (ex_sq 1).
Proof. reflexivity. Qed.
Lemma ex_pm_wf : Forall (fwf rat_spec) ex_pm.
Proof. constructor; [|constructor; [|constructor]]; (split; [split; reflexivity|reflexivity]) || (repeat split; discriminate || reflexivity || lia). Qed.
Lemma ex_triangle_ok : Forall (pwf rat_spec) ex_triangle /\ Forall (fun g : poly RR => g <> []) ex_triangle /\
  Forall (fun g : poly RR => forall t, In t g -> length (tdeg t) <= 3) ex_triangle /\ grid_system rat_spec [ex_pm; ex_pm; ex_pm] ex_triangle.
Proof.
  split; [|split; [|split]].
  - repeat (constructor; [apply ex_clean; reflexivity|]). constructor.
  - repeat (constructor; [discriminate|]). constructor.
  - repeat (constructor; [intros t I; repeat (destruct I as [<-|I]; [cbn; lia|]); destruct I|]). constructor.
  - split; [|split].
    + intros [|[|[|i]]] Hi; [exists (ex_sq 0)|exists (ex_sq 1)|exists (ex_sq 2)|cbn in Hi; lia]; (split; [cbn; auto|]);
        refine (proj2 (C134_product rat_spec _ ex_pm _ ex_pm_wf _)); reflexivity.
    + repeat (constructor; [exact ex_pm_wf|]). constructor.
    + assert (D : NoDup (map (den rat_spec) ex_pm)) by (constructor; [intros [H|[]]; exact (ex_den1 (eq_sym H))|constructor; [intros []|constructor]]).
      repeat (constructor; [exact D|]). constructor.
Qed.
Lemma ex_triangle_evaluates x : grid_point [ex_pm; ex_pm; ex_pm] x -> Forall (fun g : poly RR => exists v, poly_eval g x = Ok v) ex_triangle.
Proof.
  intros G. inversion G as [|a ? x1 ? Ia G1]; subst. inversion G1 as [|b ? x2 ? Ib G2]; subst. inversion G2 as [|c ? x3 ? Ic G3]; subst. inversion G3; subst.
  destruct Ia as [<-|[<-|[]]], Ib as [<-|[<-|[]]], Ic as [<-|[<-|[]]]; repeat (constructor; [eexists; reflexivity|]); constructor.
Qed.
(** a triangle has no such colouring: this follows from the run *)
Example C134_ex_triangle : forall x, grid_point [ex_pm; ex_pm; ex_pm] x -> ~ Forall (fun g : poly RR => exists v, poly_eval g x = Ok v /\ den rat_spec v = k0) ex_triangle.
Proof.
  destruct ex_triangle_ok as (W & NZ & V & GS).
  apply (proj1 (C134_solvable rat_spec lex_spec 40 [ex_pm; ex_pm; ex_pm] ex_triangle _ W NZ V GS (proj1 C134_ex_run) ex_triangle_evaluates)).
  eexists. split; reflexivity.
Qed.

Print Assumptions C134_product.
Print Assumptions C134_membership.
Print Assumptions C134_solvable.
Print Assumptions C134_count.
