(** * Property C128: the facets of Cone::new over any number type.

    Nothing is assumed about the arithmetic here: the number type may be f32 or f64 with any of their values, the comparison
    with an accuracy may be any function.  The facts are about the values that are computed. *)
From Coq Require Import ZArith QArith Qcanon Lia Sorted.
From Verif Require Import Base BaseLemmas IntModel RatModel FieldIface IntProofs RatProofs UtilModel MatModel AlgModel
  LinSpec RrefSpec MatProofs AlgProofs LinFacts PropMat PropLin ConeModel ConeProofs PropCone FloatModel PropCost PropFloatElim.
From Coq Require Import SpecFloat.
Local Open Scope nat_scope.

(** the order in which the sets of positions are visited *)
Inductive lexlt : list nat -> list nat -> Prop :=
| lex_here x y l m : x < y -> lexlt (x :: l) (y :: m)
| lex_next x l m : lexlt l m -> lexlt (x :: l) (x :: m).
Definition increasing (n : nat) (p : list nat) : Prop := StronglySorted lt p /\ Forall (fun i => i < n) p.

(** ** combinations *)
Lemma combinations_map {A B : Type} (h : A -> B) k l : combinations k (map h l) = map (map h) (combinations k l).
Proof.
  revert k. induction l as [|x l IH]; intros [|k]; cbn [combinations map]; try reflexivity.
  rewrite map_app, !map_map, <- IH. f_equal. rewrite IH, map_map. reflexivity.
Qed.
Lemma combinations_length {A : Type} k (l : list A) : length (combinations k l) = choose (length l) k.
Proof.
  revert k. induction l as [|x l IH]; intros [|k]; cbn [combinations choose length]; try reflexivity.
  rewrite app_length, map_length, !IH. reflexivity.
Qed.
Lemma map_nth_seq {A : Type} (l : list A) d : l = map (fun i => nth i l d) (seq 0 (length l)).
Proof.
  induction l as [|x l IH]; [reflexivity|]. cbn [length seq map nth]. f_equal. rewrite <- seq_shift, map_map. exact IH.
Qed.
Lemma combinations_lower k a n p : In p (combinations k (seq a n)) -> StronglySorted lt p /\ Forall (fun i => a <= i < a + n) p.
Proof.
  revert k a p. induction n as [|n IH]; intros [|k] a p; cbn [seq combinations].
  - intros [<-|[]]. split; constructor.
  - intros [].
  - intros [<-|[]]. split; constructor.
  - intros H. apply in_app_iff in H as [H|H].
    + apply in_map_iff in H as (q & <- & Hq). destruct (IH _ _ _ Hq) as [S B]. split.
      * constructor; [exact S|]. revert B. apply Forall_impl. intros; lia.
      * constructor; [lia|]. revert B. apply Forall_impl. intros; lia.
    + destruct (IH _ _ _ H) as [S B]. split; [exact S|]. revert B. apply Forall_impl. intros; lia.
Qed.
Lemma sorted_app {A : Type} (R : A -> A -> Prop) l m : StronglySorted R l -> StronglySorted R m -> (forall x y, In x l -> In y m -> R x y) -> StronglySorted R (l ++ m).
Proof.
  intros H. induction H as [|x l _ IH B]; intros M X; [exact M|]. cbn. constructor; [apply IH; [exact M|intros; apply X; [right|]; assumption]|].
  apply Forall_app. split; [exact B|]. apply Forall_forall. intros y Hy. apply X; [left; reflexivity|exact Hy].
Qed.
Lemma sorted_cons x l : StronglySorted lexlt l -> StronglySorted lexlt (map (cons x) l).
Proof.
  induction 1 as [|y l _ IH B]; [constructor|]. cbn. constructor; [exact IH|]. apply Forall_map. revert B. apply Forall_impl. intros; apply lex_next; assumption.
Qed.
Lemma combinations_sorted k a n : StronglySorted lexlt (combinations k (seq a n)).
Proof.
  revert k a. induction n as [|n IH]; intros [|k] a; cbn [seq combinations]; try (repeat constructor; fail).
  apply sorted_app; [apply sorted_cons; apply IH|apply IH|].
  intros p q Hp Hq. apply in_map_iff in Hp as (p' & <- & _).
  destruct q as [|y q].
  - apply combinations_spec in Hq as [_ L]. discriminate L.
  - apply combinations_lower in Hq as [_ B]. inversion B; subst. apply lex_here. lia.
Qed.

Lemma Forall2_mapl {A B C : Type} (h : A -> B) (P : B -> C -> Prop) l m : Forall2 P (map h l) m -> Forall2 (fun x y => P (h x) y) l m.
Proof. revert m. induction l as [|x l IH]; intros m H; inversion H; subst; constructor; [assumption|apply IH; assumption]. Qed.
Lemma pick {A B : Type} (R : A -> A -> Prop) (P : A -> option B -> Prop) ps os : StronglySorted R ps -> Forall2 P ps os ->
  exists qs, StronglySorted R qs /\ incl qs ps /\ Forall2 (fun b p => P p (Some b)) (flat_map (fun o => match o with Some f => [f] | None => [] end) os) qs.
Proof.
  intros S. revert os. induction S as [|p ps _ IH O]; intros os M; inversion M as [|? o ? os' H1 H2]; subst.
  - exists []. split; [constructor|]. split; [apply incl_refl|constructor].
  - destruct (IH os' H2) as (qs & S' & I & Q). destruct o as [b|]; cbn [flat_map app].
    + exists (p :: qs). split; [constructor; [exact S'|]|split; [|constructor; assumption]].
      * rewrite Forall_forall in *. intros q Hq. apply O, I, Hq.
      * intros q [<-|Hq]; [left; reflexivity|right; apply I, Hq].
    + exists qs. split; [exact S'|]. split; [|exact Q]. intros q Hq. right. apply I, Hq.
Qed.

Section Any.
Context {F : FieldImpl} (T : StabImpl F).
Notation mat := (mat F).

(** the computed inner product is a number, and not a negative one *)
Definition above (g normal : mat) : Prop := exists x o, mat_dot g normal = Ok x /\ fpcmp T x f0 = Ok (Some o) /\ o <> Lt.
(** the vector the code turns into a normal: the first of the kernel of the matrix with the given rows, if these have full rank *)
Definition candidate (sub : list mat) (n0 : mat) : Prop := exists a e s ker,
  mat_from_row_vectors sub = Ok a /\ mat_row_echelon T a = Ok e /\ form_to_rref T e = Ok s /\
  form_rank T s = Ok (length sub) /\ compute_kernel T s = Ok (n0 :: ker).
(** the normal points to the side of the first generator *)
Definition oriented (g0 n0 normal : mat) : Prop := exists x o, mat_dot g0 n0 = Ok x /\ fpcmp T x f0 = Ok (Some o) /\
  (o = Lt -> exists m1, fsub f0 f1 = Ok m1 /\ mat_scale n0 m1 = Ok normal) /\ (o <> Lt -> normal = n0).

Lemma above_all gens normal b : all_above T gens normal = Ok b -> (b = true <-> forall g, In g gens -> above g normal).
Proof.
  induction gens as [|g gens IH]; cbn [all_above]; intros E.
  - injection E as <-. split; [intros _ g []|reflexivity].
  - apply bind_Ok in E as (d & Ed & E). apply bind_Ok in E as (o & Eo & E).
    assert (X : forall x o', mat_dot g normal = Ok x /\ fpcmp T x f0 = Ok (Some o') /\ o' <> Lt -> o = Some o' /\ o' <> Lt).
    { intros x o' (E1 & E2 & N). rewrite Ed in E1. injection E1 as <-. rewrite Eo in E2. injection E2 as ->. auto. }
    assert (Y : forall o', o = Some o' -> o' <> Lt -> all_above T gens normal = Ok b -> b = true <-> (forall g0, In g0 (g :: gens) -> above g0 normal)).
    { intros o' -> N E'. specialize (IH E'). split.
      - intros Hb g' [<-|I]; [exists d, o'; auto|apply IH; assumption].
      - intros H. apply IH. intros g' I. apply H. right. exact I. }
    destruct o as [[]|].
    + apply (Y Eq); [reflexivity|discriminate|exact E].
    + injection E as <-. split; [discriminate|]. intros H. destruct (H g (or_introl eq_refl)) as (x & o' & Hx). destruct (X x o' Hx) as [Q N]. congruence.
    + apply (Y Gt); [reflexivity|discriminate|exact E].
    + injection E as <-. split; [discriminate|]. intros H. destruct (H g (or_introl eq_refl)) as (x & o' & Hx). destruct (X x o' Hx) as [Q N]. congruence.
Qed.

Lemma facet_iff gens sub o : facet_of T gens (length sub) sub = Ok o ->
  forall f, o = Some f <-> fgens f = sub /\ (exists g0 rest n0, gens = g0 :: rest /\ candidate sub n0 /\ oriented g0 n0 (fnormal f)) /\
    forall g, In g gens -> above g (fnormal f).
Proof.
  unfold facet_of, rows_rref. intros E f.
  apply bind_Ok in E as (s & Es & E). apply bind_Ok in Es as (a & Ea & Es). apply bind_Ok in Es as (e & Ee & Es).
  apply bind_Ok in E as (r & Er & E).
  assert (D : forall n0, candidate sub n0 -> r = length sub /\ exists ker, compute_kernel T s = Ok (n0 :: ker)).
  { intros n0 (a' & e' & s' & ker & H1 & H2 & H3 & H4 & H5). rewrite Ea in H1. injection H1 as <-. rewrite Ee in H2. injection H2 as <-.
    rewrite Es in H3. injection H3 as <-. rewrite Er in H4. injection H4 as ->. eauto. }
  destruct (Nat.eqb_spec r (length sub)) as [R|R]; cbn [negb] in E.
  2:{ injection E as <-. split; [discriminate|]. intros (_ & (g0 & rest & n0 & _ & C & _) & _). destruct (D n0 C) as [X _]. contradiction. }
  apply bind_Ok in E as (ker & Ek & E). apply bind_Ok in E as (n0 & En & E). apply bind_Ok in E as (g0 & Eg & E).
  destruct ker as [|n1 ker]; [discriminate En|]. injection En as ->. destruct gens as [|g1 rest]; [discriminate Eg|]. injection Eg as ->.
  apply bind_Ok in E as (d & Ed & E). apply bind_Ok in E as (c & Ec & E).
  assert (C : candidate sub n0) by (exists a, e, s, ker; rewrite R in Er; auto).
  destruct c as [c|].
  2:{ injection E as <-. split; [discriminate|]. intros (_ & (g0' & rest' & n0' & Eq & C' & x & o' & H1 & H2 & _) & _). injection Eq as <- <-.
      destruct (D n0' C') as (_ & ker' & K). rewrite Ek in K. injection K as <- _. rewrite Ed in H1. injection H1 as <-. congruence. }
  apply bind_Ok in E as (normal & Enormal & E). apply bind_Ok in E as (b & Eb & E). injection E as <-.
  assert (O : forall w, oriented g0 n0 w <-> w = normal).
  { intros w. split.
    - intros (x & o' & H1 & H2 & H3 & H4). rewrite Ed in H1. injection H1 as <-. rewrite Ec in H2. injection H2 as <-.
      destruct c; [rewrite H4 by discriminate; congruence| |rewrite H4 by discriminate; congruence].
      destruct (H3 eq_refl) as (m1 & M1 & M2). rewrite M1 in Enormal. cbn [bind] in Enormal. congruence.
    - intros ->. exists d, c. split; [exact Ed|]. split; [exact Ec|]. split.
      + intros ->. apply bind_Ok in Enormal as (m1 & M1 & M2). eauto.
      + intros N. destruct c; [congruence|contradiction|congruence]. }
  pose proof (above_all _ _ _ Eb) as A. split.
  - intros Q. destruct b; [|discriminate Q]. injection Q as <-. cbn [fgens fnormal]. split; [reflexivity|]. split; [|apply A; reflexivity].
    exists g0, rest, n0. split; [reflexivity|]. split; [exact C|]. apply O. reflexivity.
  - intros (G & (g0' & rest' & n0' & Eq & C' & O') & H). injection Eq as <- <-. destruct (D n0' C') as (_ & ker' & K). rewrite Ek in K. injection K as <- _.
    apply O in O'. rewrite O' in H. rewrite (proj2 A H). destruct f as [fn fg]. cbn in *. congruence.
Qed.

Lemma cone_inv gens c : cone_new T gens = Ok c -> exists g0 rest os, gens = g0 :: rest /\ cgens c = gens /\ cambient c = mrows g0 /\ cdim c <> 0 /\
  cfacets c = flat_map (fun o => match o with Some f => [f] | None => [] end) os /\
  Forall2 (fun s o => facet_of T gens (cdim c - 1) s = Ok o) (combinations (cdim c - 1) gens) os.
Proof.
  unfold cone_new. intros E. apply bind_Ok in E as (g0 & Eg & E). apply bind_Ok in E as (s & _ & E). apply bind_Ok in E as (dim & _ & E).
  apply bind_Ok in E as (orth & _ & E). apply bind_Ok in E as (k & Ek & E). apply bind_Ok in E as (os & Eo & E). injection E as <-.
  destruct gens as [|g1 rest]; [discriminate Eg|]. injection Eg as ->. exists g0, rest, os. cbn [cgens cambient cdim cfacets].
  destruct (Nat.eqb_spec dim 0) as [Z|Z]; [discriminate Ek|]. injection Ek as <-. repeat (split; [reflexivity || exact Z|]). apply mapM_Ok. exact Eo.
Qed.

(** exactly these are the facets *)
Theorem C128_facets : forall gens c, cone_new T gens = Ok c ->
  cgens c = gens /\ 1 <= cdim c /\ (exists g0 rest, gens = g0 :: rest /\ cambient c = mrows g0) /\
  forall f, In f (cfacets c) <->
    subseq (fgens f) gens /\ length (fgens f) = cdim c - 1 /\
    (exists g0 rest n0, gens = g0 :: rest /\ candidate (fgens f) n0 /\ oriented g0 n0 (fnormal f)) /\
    (forall g, In g gens -> above g (fnormal f)).
Proof.
  intros gens c E. destruct (cone_inv gens c E) as (g0 & rest & os & -> & G & A & N & FC & M).
  split; [exact G|]. split; [lia|]. split; [eauto|]. intros f. rewrite FC, in_flat_map. split.
  - intros (o & Ho & I). destruct o as [f'|]; [destruct I as [<-|[]]|destruct I].
    assert (X : exists s, In s (combinations (cdim c - 1) (g0 :: rest)) /\ facet_of T (g0 :: rest) (cdim c - 1) s = Ok (Some f')).
    { clear - M Ho. induction M as [|s o ss os H _ IH]; [destruct Ho|]. destruct Ho as [->|Ho]; [exists s; split; [left; reflexivity|exact H]|].
      destruct (IH Ho) as (s' & I & H'). exists s'. split; [right; exact I|exact H']. }
    destruct X as (s & Is & Es). apply combinations_spec in Is as [S Ls]. rewrite <- Ls in Es.
    destruct (proj1 (facet_iff _ _ _ Es f') eq_refl) as (<- & B & C). auto.
  - intros (S & L & B & C).
    assert (X : exists o, In o os /\ facet_of T (g0 :: rest) (cdim c - 1) (fgens f) = Ok o).
    { assert (I : In (fgens f) (combinations (cdim c - 1) (g0 :: rest))) by (apply combinations_spec; auto).
      clear - M I. induction M as [|s o ss os H _ IH]; [destruct I|]. destruct I as [->|I]; [exists o; split; [left; reflexivity|exact H]|].
      destruct (IH I) as (o' & I' & H'). exists o'. split; [right; exact I'|exact H']. }
    destruct X as (o & Io & Eo). exists o. split; [exact Io|]. rewrite <- L in Eo.
    rewrite (proj2 (facet_iff _ _ _ Eo f) (conj eq_refl (conj B C))). left. reflexivity.
Qed.

(** they come in the lexicographic order of the positions of their generators, one facet at most for each set of positions *)
Theorem C128_order : forall gens c, cone_new T gens = Ok c -> exists ps : list (list nat),
  Forall2 (fun f p => Forall2 (fun g i => nth_error gens i = Some g) (fgens f) p) (cfacets c) ps /\
  StronglySorted lexlt ps /\ Forall (increasing (length gens)) ps.
Proof.
  intros gens c E. destruct (cone_inv gens c E) as (g0 & rest & os & Eg & _ & _ & _ & FC & M).
  set (h := fun i => nth i gens g0).
  assert (M' : Forall2 (fun p o => facet_of T gens (cdim c - 1) (map h p) = Ok o) (combinations (cdim c - 1) (seq 0 (length gens))) os).
  { apply (Forall2_mapl (map h) (fun s o => facet_of T gens (cdim c - 1) s = Ok o)). rewrite <- combinations_map. unfold h. rewrite <- map_nth_seq. exact M. }
  destruct (pick lexlt _ _ _ (combinations_sorted _ _ _) M') as (qs & S & I & P). rewrite <- FC in P. exists qs.
  assert (B : Forall (increasing (length gens)) qs).
  { apply Forall_forall. intros p Hp. apply I, combinations_lower in Hp as [S1 B1]. split; [exact S1|]. revert B1. apply Forall_impl. intros; lia. }
  assert (L : Forall (fun p => length (map h p) = cdim c - 1) qs).
  { apply Forall_forall. intros p Hp. apply I, combinations_spec in Hp as [_ L]. rewrite map_length. exact L. }
  split; [|split; assumption]. clear - P B L. induction P as [|f p fs qs H _ IH]; [constructor|].
  inversion B as [|? ? B1 B2]; subst. inversion L as [|? ? L1 L2]; subst. constructor; [|apply IH; assumption].
  rewrite <- L1 in H. destruct (proj1 (facet_iff _ _ _ H f) eq_refl) as (-> & _). destruct B1 as [_ B1]. clear - B1.
  induction B1 as [|i p Hi _ IH]; [constructor|]. cbn [map]. constructor; [apply nth_error_nth'; exact Hi|exact IH].
Qed.
Theorem C128_number : forall gens c, cone_new T gens = Ok c -> length (cfacets c) <= choose (length gens) (cdim c - 1).
Proof.
  intros gens c E. destruct (cone_inv gens c E) as (g0 & rest & os & Eg & _ & _ & _ & FC & M). rewrite FC, <- combinations_length.
  clear - M. induction M as [|s o ss os _ _ IH]; [cbn; lia|]. cbn [flat_map]. rewrite app_length. destruct o; cbn [length]; lia.
Qed.
End Any.

(** ** f32 and f64 *)
Section Floats.
Variables (t : fmt) (e : fenv).
Notation FF := (float_impl t e).
Lemma sum_nan (ps : list (FF * FF)) : foldM (fun acc p => q <- fmul (fst p) (snd p) ;; fadd acc q) ps (S754_nan : FF) = Ok (S754_nan : FF).
Proof. induction ps as [|p ps IH]; [reflexivity|]. cbn [foldM bind]. cbn [bind fmul fadd float_impl]. exact IH. Qed.
Lemma dot_nan (ps : list (FF * FF)) acc x y z : In (x, y) ps -> SFmul (prec t) (emax t) x y = S754_nan ->
  foldM (fun acc p => q <- fmul (fst p) (snd p) ;; fadd acc q) ps (acc : FF) = Ok z -> z = S754_nan.
Proof.
  revert acc. induction ps as [|[x' y'] ps IH]; intros acc I N H; [destruct I|]. destruct I as [Eq|I].
  - injection Eq as -> ->. cbn [foldM bind fst snd fmul fadd float_impl] in H. rewrite N in H.
    assert (A : SFadd (prec t) (emax t) acc S754_nan = S754_nan) by (destruct acc; reflexivity). rewrite A in H. rewrite sum_nan in H. congruence.
  - cbn [foldM bind fmul fadd float_impl] in H. exact (IH _ I N H).
Qed.
(** no product of a coordinate of a generator with a coordinate of a normal is NaN; in particular neither of the two is *)
Theorem C128_float_numbers : forall gens c f g i x y, cone_new (float_stab t e) gens = Ok c -> In f (cfacets c) -> In g gens ->
  nth_error (ments g) i = Some x -> nth_error (ments (fnormal f)) i = Some y ->
  is_nan (x : float) = false /\ is_nan (y : float) = false /\ is_nan (SFmul (prec t) (emax t) x y) = false.
Proof.
  intros gens c f g i x y E Hf Hg Hx Hy. destruct (C128_facets _ gens c E) as (_ & _ & _ & H). apply H in Hf as (_ & _ & _ & A).
  destruct (A g Hg) as (z & o & D & C & _).
  assert (N : is_nan (SFmul (prec t) (emax t) x y) = false).
  { destruct (SFmul (prec t) (emax t) x y) eqn:Q; try reflexivity. exfalso.
    assert (I : In (x, y) (combine (ments g) (ments (fnormal f)))).
    { clear - Hx Hy. revert i Hx Hy. generalize (ments g), (ments (fnormal f)). intros l m. revert m. induction l as [|a l IH]; intros [|b m] [|i] Hx Hy; try discriminate.
      - left. cbn in *. congruence.
      - right. exact (IH _ _ Hx Hy). }
    unfold mat_dot in D. pose proof (dot_nan _ _ _ _ _ I Q D) as Z. subst z. cbn in C. discriminate C. }
  split; [|split; [|exact N]]; [destruct x; try reflexivity; cbn in N; discriminate|destruct y; try reflexivity]. destruct x; cbn in N; discriminate.
Qed.
(** a computed inner product of a generator with a normal is 0 or positive, infinity included *)
Theorem C128_float_above : forall gens c f g, cone_new (float_stab t e) gens = Ok c -> In f (cfacets c) -> In g gens ->
  exists z : float, mat_dot g (fnormal f) = Ok (z : FF) /\ (SFeqb z fzero = true \/ SFltb fzero z = true).
Proof.
  intros gens c f g E Hf Hg. destruct (C128_facets _ gens c E) as (_ & _ & _ & H). apply H in Hf as (_ & _ & _ & A).
  destruct (A g Hg) as (z & o & D & C & N). exists z. split; [exact D|]. cbn in C. injection C as C.
  destruct o; [left; unfold SFeqb; rewrite C; reflexivity|contradiction|]. right. destruct z as [s|s| |s m ex]; try discriminate C; destruct s; try discriminate C; reflexivity.
Qed.
End Floats.

(** ** Concrete cases *)
Definition ex_env0 : fenv := mkenv (fun x _ => x) false.
Notation FD := (float_impl binary64 ex_env0).
Definition ex_fv (l : list Z) : mat FD := mkmat (map (fun z => (binary_normalize 53 1024 z 0 false : FD)) l) (length l) 1.
Notation FT := (float_stab binary64 ex_env0).
(** a pyramid over f64 *)
Definition ex_fgens : list (mat FD) := [ex_fv [1; 1; 0]; ex_fv [1; -1; 0]; ex_fv [1; 0; 1]; ex_fv [1; 0; -2]]%Z.
Definition ex_fcone : cone (F := FD) := mkcone ex_fgens
  [mkface (ex_fv [2; -2; 1]) [ex_fv [1; 1; 0]; ex_fv [1; 0; -2]]; mkface (ex_fv [1; 1; -1]) [ex_fv [1; -1; 0]; ex_fv [1; 0; 1]];
   mkface (ex_fv [2; 2; 1]) [ex_fv [1; -1; 0]; ex_fv [1; 0; -2]]]%Z [] 3 3.
Example C128_ex : cone_new FT ex_fgens = Ok ex_fcone.
Proof. vm_cast_no_check (eq_refl (Ok ex_fcone)). Qed.
(** with M = 2^1000 the vectors (1,0,-M) and (0,1,M) span a facet of the cone of (0,0,1), (1,0,-M), (0,1,M), (M,M,0): the normal is (M,-M,1).
    In f64 its inner product with (M,M,0) is inf - inf, and the facet is missed *)
Definition ex_m : Z := 2 ^ 1000.
Definition ex_big : list (mat FD) := [ex_fv [0; 0; 1]; ex_fv [1; 0; -ex_m]; ex_fv [0; 1; ex_m]; ex_fv [ex_m; ex_m; 0]]%Z.
Definition ex_bigcone : cone (F := FD) := mkcone ex_big
  [mkface (ex_fv [0; 1; 0]) [ex_fv [0; 0; 1]; ex_fv [1; 0; -ex_m]]; mkface (ex_fv [1; 0; 0]) [ex_fv [0; 0; 1]; ex_fv [0; 1; ex_m]]]%Z [] 3 3.
Example C128_ex_nan : cone_new FT ex_big = Ok ex_bigcone /\ mat_dot (ex_fv [ex_m; ex_m; 0]%Z) (ex_fv [ex_m; -ex_m; 1]%Z) = Ok (S754_nan : FD).
Proof. split; [vm_cast_no_check (eq_refl (Ok ex_bigcone))|vm_cast_no_check (eq_refl (Ok (S754_nan : FD)))]. Qed.
Print Assumptions C128_facets.
Print Assumptions C128_order.
Print Assumptions C128_number.
Print Assumptions C128_float_numbers.
Print Assumptions C128_float_above.
