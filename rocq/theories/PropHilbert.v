(** * C118: Hilbert functions

    The dimension of the polynomials of degree at most d modulo the ideal (for homogeneous generators: of those of one weight) can be read off the
    leading monomials buchberger_algorithm returns: it is the number of standard monomials of that degree. *)
From Coq Require Import ZArith Znumtheory.
From Verif Require Import Base BaseLemmas IntModel RatModel FieldIface RatProofs MDegModel OrdModel PolyModel CompModel
  MonoSpec MDegProofs OrdProofs LinSpec PolySpec PolyProofs GroebnerSpec DivProofs DivSpec GbProofs CompMono PropPoly PropDiv PropGb IdealSpec PropIdeal SubstSpec StdSpec PropIdealOps PropStd GradeSpec PropGraded HilbertSpec.
From Coq Require Import Ring Field Setoid Morphisms.
Import ListNotations.
Local Open Scope nat_scope.

(** [h] is the dimension of the polynomials in x_0 .. x_(n-1) with monomials in [S], modulo the ideal of [G]: some [h] of them are linearly
    independent modulo the ideal, and no more than [h] are *)
Definition quotient_dim {K : MathField} (S : mono -> Prop) (n : nat) (G : list (spoly K)) (h : nat) : Prop :=
  (exists P, (forall k, k < h -> svars n (P k) /\ forall m, coeff (P k) m <> k0 -> S m) /\ independent_mod G h P) /\
  (forall c P, (forall k, k < c -> svars n (P k) /\ forall m, coeff (P k) m <> k0 -> S m) -> independent_mod G c P -> c <= h).
(** an order that compares the total degrees first *)
Definition degree_first {O} (OS : OrderSpec O) : Prop := forall a b, olt OS a b -> mtot a <= mtot b.
Lemma grlex_degree_first : degree_first grlex_spec.
Proof. intros a b [H|[H _]]; lia. Qed.
Lemma grevlex_degree_first : degree_first grevlex_spec.
Proof. intros a b [H|[H _]]; lia. Qed.
Lemma quotient_dim_unique {K : MathField} S n (G : list (spoly K)) h h' : quotient_dim S n G h -> quotient_dim S n G h' -> h = h'.
Proof. intros [(P & A & B) C] [(P' & A' & B') C']. specialize (C h' P' A' B'). specialize (C' h P A B). lia. Qed.

Section PropHilbert.
Context {F : FieldImpl} {K : MathField} (FS : FieldSpec F K).
Notation poly := (poly F).
Notation val := (ip FS).
Notation clean := (pwf FS).
Notation nonzero := (fun g : poly => g <> []).
Notation vars n := (fun g : poly => forall t, In t g -> length (tdeg t) <= n).

Lemma dim_generic {O} (OS : OrderSpec O) S n (gens out : list poly) L : groebner (olt OS) (map val out) ->
  (forall f, in_ideal (map val out) f <-> in_ideal (map val gens) f) -> stays (olt OS) S n (map val out) ->
  NoDup L -> (forall m, In m L <-> std (olt OS) n (map val out) m /\ S m) -> quotient_dim S n (map val gens) (length L).
Proof.
  intros GB SI St ND HL. split.
  - exists (fun k => pterm k1 (nth k L mone)). split.
    + intros k Hk. assert (I : In (nth k L mone) L) by (apply nth_In; exact Hk). apply HL in I as [[V _] HS]. split; [apply svars_pterm; exact V|].
      intros m. rewrite coeff_pterm. destruct (mono_dec (nth k L mone) m) as [<-|]; [intros _; exact HS|intros X; contradiction X; reflexivity].
    + intros w I. apply (std_mod_independent (olt OS) (olaws _ OS) n (map val out) L GB ND); [intros m; apply HL|]. apply SI. exact I.
  - intros c P HP Ind. apply (independent_le (olt OS) S n (map val out) c P L St HP).
    + intros w I. apply Ind. apply SI. exact I.
    + intros m A B. apply HL. split; assumption.
Qed.

(** ** C118 *)
(** with GrLex or GRevLex, the standard monomials of degree at most d count the polynomials of degree at most d modulo the ideal *)
Theorem C118_degree : forall (O : ord_impl) (OS : OrderSpec O) fuel n d (gens out : list poly) L, degree_first OS ->
  Forall clean gens -> Forall nonzero gens -> Forall (vars n) gens -> buchberger_algorithm Debug O fuel gens = Ok out ->
  NoDup L -> (forall m, In m L <-> std (olt OS) n (map val out) m /\ mtot m <= d) ->
  quotient_dim (fun m => mtot m <= d) n (map val gens) (length L).
Proof.
  intros O OS fuel n d gens out L DF W NZ V E ND HL. destruct (algorithm_run FS OS fuel gens out W NZ E) as (_ & SI & GB & _).
  apply (dim_generic OS _ n gens out L GB SI); auto. apply (stays_degree (olt OS) (olaws _ OS)); auto. apply (out_vars FS OS fuel n gens out); auto.
Qed.
(** for homogeneous generators (with any weights) and every order, the standard monomials of weight d count the polynomials of weight d *)
Theorem C118_homogeneous : forall (O : ord_impl) (OS : OrderSpec O) k w d fuel n (gens out : list poly) L,
  Forall clean gens -> Forall nonzero gens -> Forall (vars n) gens -> Forall (whomog k w) gens -> buchberger_algorithm Debug O fuel gens = Ok out ->
  NoDup L -> (forall m, In m L <-> std (olt OS) n (map val out) m /\ (k | mwdeg w m - d)%Z) ->
  quotient_dim (fun m => (k | mwdeg w m - d)%Z) n (map val gens) (length L).
Proof.
  intros O OS k w d fuel n gens out L W NZ V H E ND HL. destruct (algorithm_run FS OS fuel gens out W NZ E) as (_ & SI & GB & _).
  apply (dim_generic OS _ n gens out L GB SI); auto.
  assert (VG : forall g0, In g0 (map val out) -> svars n g0) by (apply (out_vars FS OS fuel n gens out); auto).
  intros p Vp Hp. destruct (peq_zero_dec p) as [Z|(m0 & N0)].
  { exists pzero. split; [|intros m N; contradiction N; reflexivity]. rewrite Z. apply in_ideal_sub; apply in_ideal_zero. }
  assert (Gr : graded Z.eq_dec (grade k w) (map val out)).
  { intros f dd Hf. apply SI. apply (homog_graded Z.eq_dec (grade k w) (grade_mul k w)); [apply (whomog_all FS); assumption|]. apply SI. exact Hf. }
  destruct (stays_graded (olt OS) (olaws _ OS) Z.eq_dec (grade k w) n (map val out) (grade k w m0) (grade_mul k w) VG Gr p Vp) as (r & Ir & Hr).
  - intros m N. apply grade_eq. apply (div_trans k _ d); [apply Hp; exact N|apply div_sym; apply Hp; exact N0].
  - exists r. split; [exact Ir|]. intros m N. destruct (Hr m N) as [A B]. split; [exact A|]. apply grade_eq in B. apply (div_trans k _ (mwdeg w m0)); [exact B|apply Hp; exact N0].
Qed.
(** so the counts do not depend on the order or on the generators *)
Theorem C118_independent : forall (O O' : ord_impl) (OS : OrderSpec O) (OS' : OrderSpec O') fuel fuel' n d (gens gens' out out' : list poly) L L',
  degree_first OS -> degree_first OS' -> Forall clean gens -> Forall nonzero gens -> Forall (vars n) gens -> Forall clean gens' -> Forall nonzero gens' -> Forall (vars n) gens' ->
  (forall f, in_ideal (map val gens) f <-> in_ideal (map val gens') f) ->
  buchberger_algorithm Debug O fuel gens = Ok out -> buchberger_algorithm Debug O' fuel' gens' = Ok out' ->
  NoDup L -> (forall m, In m L <-> std (olt OS) n (map val out) m /\ mtot m <= d) ->
  NoDup L' -> (forall m, In m L' <-> std (olt OS') n (map val out') m /\ mtot m <= d) -> length L = length L'.
Proof.
  intros O O' OS OS' fuel fuel' n d gens gens' out out' L L' D D' W NZ V W' NZ' V' SI E E' ND HL ND' HL'.
  pose proof (C118_degree O OS fuel n d gens out L D W NZ V E ND HL) as A. pose proof (C118_degree O' OS' fuel' n d gens' out' L' D' W' NZ' V' E' ND' HL') as B.
  apply (quotient_dim_unique _ _ _ _ _ A). destruct B as [(P & B1 & B2) B3]. split.
  - exists P. split; [exact B1|]. intros w I. apply B2. apply SI. exact I.
  - intros c Q HQ Ind. apply (B3 c Q HQ). intros w I. apply Ind. apply SI. exact I.
Qed.
Theorem C118_independent_homogeneous : forall (O O' : ord_impl) (OS : OrderSpec O) (OS' : OrderSpec O') k w d fuel fuel' n (gens out out' : list poly) L L',
  Forall clean gens -> Forall nonzero gens -> Forall (vars n) gens -> Forall (whomog k w) gens ->
  buchberger_algorithm Debug O fuel gens = Ok out -> buchberger_algorithm Debug O' fuel' gens = Ok out' ->
  NoDup L -> (forall m, In m L <-> std (olt OS) n (map val out) m /\ (k | mwdeg w m - d)%Z) ->
  NoDup L' -> (forall m, In m L' <-> std (olt OS') n (map val out') m /\ (k | mwdeg w m - d)%Z) -> length L = length L'.
Proof.
  intros O O' OS OS' k w d fuel fuel' n gens out out' L L' W NZ V H E E' ND HL ND' HL'.
  apply (quotient_dim_unique _ _ _ _ _ (C118_homogeneous O OS k w d fuel n gens out L W NZ V H E ND HL) (C118_homogeneous O' OS' k w d fuel' n gens out' L' W NZ V H E' ND' HL')).
Qed.
(** for each degree there is such a list *)
Theorem C118_exists : forall (O : ord_impl) (OS : OrderSpec O) n d (out : list poly),
  exists L, NoDup L /\ forall m, In m L <-> std (olt OS) n (map val out) m /\ mtot m <= d.
Proof.
  intros O OS n d out. set (Q := fun m => std (olt OS) n (map val out) m /\ mtot m <= d).
  assert (Dec : forall m, mvars n m -> Q m \/ ~ Q m).
  { intros m V. destruct (le_lt_dec (mtot m) d) as [Le|Gt]; [|right; intros [_ X]; lia].
    destruct (std_dec (olt OS) (olaws _ OS) n (map val out) m (left V)) as [A|A]; [left; split; assumption|right; intros [X _]; contradiction]. }
  assert (X : forall B : list mono, (forall m, In m B -> mvars n m \/ ~ mvars n m) -> exists L, NoDup L /\ forall m, In m L <-> In m B /\ Q m).
  { induction B as [|b B IH]; intros HB; [exists []; split; [constructor|]; intros m; split; [intros []|intros [[] _]]|].
    destruct IH as (L & ND & HL); [intros m I; apply HB; right; exact I|].
    assert (Db : Q b \/ ~ Q b) by (destruct (HB b (or_introl eq_refl)) as [V|V]; [apply Dec; exact V|right; intros [[X _] _]; contradiction]).
    destruct (in_dec mono_dec b L) as [I|N].
    - exists L. split; [exact ND|]. intros m. rewrite HL. split; [intros [A C]; split; [right; exact A|exact C]|]. intros [[<-|A] C]; [apply HL; exact I|split; assumption].
    - destruct Db as [Y|Y].
      + exists (b :: L). split; [constructor; assumption|]. intros m. cbn [In]. rewrite HL. split.
        * intros [<-|[A C]]; [split; [left; reflexivity|exact Y]|split; [right; exact A|exact C]].
        * intros [[<-|A] C]; [left; reflexivity|right; split; assumption].
      + exists L. split; [exact ND|]. intros m. rewrite HL. split; [intros [A C]; split; [right; exact A|exact C]|]. intros [[<-|A] C]; [contradiction|split; assumption]. }
  destruct (X (box (fun _ => S d) n)) as (L & ND & HL).
  { intros m _. assert (Y : forall l, (exists i, n <= i /\ mexp m i <> 0 /\ i < l) \/ (forall i, n <= i -> i < l -> mexp m i = 0)).
    { induction l as [|l [(i & A & B & C)|IH]]; [right; intros; lia|left; exists i; split; [exact A|split; [exact B|lia]]|].
      destruct (le_lt_dec n l) as [Le|]; [destruct (Nat.eq_dec (mexp m l) 0) as [Z|N]|].
      - right. intros i A B. destruct (Nat.eq_dec i l) as [->|]; [exact Z|apply IH; lia].
      - left. exists l. auto.
      - right. intros i A B. apply IH; lia. }
    destruct (Y (length (mlist m))) as [(i & A & B & _)|H]; [right; intros V; apply B, V, A|left]. intros i Hi.
    destruct (le_lt_dec (length (mlist m)) i) as [Le|Lt]; [apply expo_over; exact Le|apply H; assumption]. }
  exists L. split; [exact ND|]. intros m. rewrite HL. split; [intros [_ H]; exact H|]. intros H. split; [|exact H]. destruct H as [[V _] Hd].
  apply box_spec; [exact V|]. intros i Hi. pose proof (mexp_le_tot m i). lia.
Qed.
End PropHilbert.

(** ** Concrete cases *)
Notation RR := (rat_impl Debug).
(** x - y^2: three monomials of degree at most 1 are standard for GrLex (whose leading monomial is y^2), two for Lex (x) *)
Definition hx : poly RR := [ex_t 1 1 [1]; ex_t (-1) 1 [0; 2]].
Example C118_run : Forall (pwf rat_spec) [hx] /\ (forall t, In t hx -> length (tdeg t) <= 2) /\
  buchberger_algorithm Debug (grlex_cmp Debug) 30 [hx] = Ok [hx] /\ buchberger_algorithm Debug (grevlex_cmp Debug) 30 [hx] = Ok [hx] /\
  buchberger_algorithm Debug lex_cmp 30 [hx] = Ok [hx].
Proof.
  split; [repeat (constructor; [apply ex_clean; reflexivity|]); constructor|].
  split; [intros t [<-|[<-|[]]]; cbn; lia|]. split; [reflexivity|]. split; reflexivity.
Qed.
Lemma deg1 m : mvars 2 m -> mtot m <= 1 -> In m [mone; mvar 0 1; mvar 1 1].
Proof.
  intros V H. assert (I : In m (box (fun _ => 2) 2)) by (apply box_spec; [exact V|]; intros i Hi; pose proof (mexp_le_tot m i); lia).
  assert (L : Forall (fun x => mtot x <= 1 -> In x [mone; mvar 0 1; mvar 1 1]) (box (fun _ => 2) 2)).
  { constructor; [intros _; left; apply mono_ext; intros [|[|i]]; reflexivity|].
    constructor; [intros _; right; right; left; apply mono_ext; intros [|[|i]]; reflexivity|].
    constructor; [intros _; right; left; apply mono_ext; intros [|[|i]]; reflexivity|].
    constructor; [intros X; cbn in X; lia|constructor]. }
  rewrite Forall_forall in L. exact (L m I H).
Qed.
Lemma std1 lt (LW : mono_order_laws lt) n (g : spoly QcField) l m : is_lm lt g l -> (std lt n [g] m <-> mvars n m /\ ~ mdiv l m).
Proof.
  intros Hl. split; intros [V H]; (split; [exact V|]).
  - apply (H g l (or_introl eq_refl) Hl).
  - intros g' l' [<-|[]] Hl'. rewrite (is_lm_unique lt LW g l' l Hl' Hl). exact H.
Qed.
Lemma NoDup3 : NoDup [mone; mvar 0 1; mvar 1 1].
Proof.
  assert (X : forall a b i, mexp a i <> mexp b i -> a <> b) by (intros a b i N E; apply N; rewrite E; reflexivity).
  constructor; [intros [E|[E|[]]]; revert E; [apply (X _ _ 0)|apply (X _ _ 1)]; discriminate|].
  constructor; [intros [E|[]]; revert E; apply (X _ _ 1); discriminate|]. constructor; [intros []|constructor].
Qed.
Lemma hx_graded (O : ord_impl) (OS : OrderSpec O) m : leading_term O hx = Ok (Some (ex_t (-1) 1 [0; 2])) ->
  (In m [mone; mvar 0 1; mvar 1 1] <-> std (olt OS) 2 (map (ip rat_spec) [hx]) m /\ mtot m <= 1).
Proof.
  intros E. assert (W : pwf rat_spec hx) by (apply ex_clean; reflexivity). destruct (proj1 (C31_clean rat_spec OS hx W) _ E) as (_ & Ll & _).
  cbn [map]. rewrite (std1 (olt OS) (olaws _ OS) 2 _ _ m Ll). split.
  - intros [<-|[<-|[<-|[]]]]; (split; [split|cbn; lia]); try (apply mvars_one || (apply mvar_vars; lia)); intros D; specialize (D 1); cbn in D; lia.
  - intros [[V _] H]. apply deg1; assumption.
Qed.
Example C118_ex_grlex : forall m, In m [mone; mvar 0 1; mvar 1 1] <-> std (olt grlex_spec) 2 (map (ip rat_spec) [hx]) m /\ mtot m <= 1.
Proof. intros m. apply (hx_graded _ grlex_spec). reflexivity. Qed.
Example C118_ex_grevlex : forall m, In m [mone; mvar 0 1; mvar 1 1] <-> std (olt grevlex_spec) 2 (map (ip rat_spec) [hx]) m /\ mtot m <= 1.
Proof. intros m. apply (hx_graded _ grevlex_spec). reflexivity. Qed.
(** with Lex the number is a different one: the order must compare degrees first *)
Theorem C118_lex_refuted : exists (out : list (poly RR)) L, buchberger_algorithm Debug lex_cmp 30 [hx] = Ok out /\
  NoDup L /\ (forall m, In m L <-> std (olt lex_spec) 2 (map (ip rat_spec) out) m /\ mtot m <= 1) /\
  ~ quotient_dim (fun m => mtot m <= 1) 2 (map (ip rat_spec) [hx]) (length L).
Proof.
  destruct C118_run as (W & V & Eg & _ & El). exists [hx], [mone; mvar 1 1]. split; [exact El|]. split; [|split].
  - pose proof NoDup3 as N. inversion N as [|? ? N1 N2]; subst. inversion N2 as [|? ? _ N3]; subst. constructor; [intros [E|[]]; apply N1; right; left; exact E|exact N3].
  - intros m. assert (Ll : is_lm (olt lex_spec) (ip rat_spec hx) (mvar 0 1)) by (apply (ex_lead _ (ex_t 1 1 [1])); [apply ex_clean; reflexivity|reflexivity]).
    cbn [map]. rewrite (std1 (olt lex_spec) (olaws _ lex_spec) 2 _ _ m Ll). split.
    + intros [<-|[<-|[]]]; (split; [split|cbn; lia]); try (apply mvars_one || (apply mvar_vars; lia)); intros D; specialize (D 0); cbn in D; lia.
    + intros [[V' D] H]. apply deg1 in H; [|exact V']. destruct H as [H|[H|[H|[]]]]; [left; exact H| |right; left; exact H]. exfalso. apply D. rewrite <- H. intros i. lia.
  - intros Q. assert (N : (fun g : poly RR => g <> []) hx) by discriminate.
    pose proof (C118_degree rat_spec (grlex_cmp Debug) grlex_spec 30 2 1 [hx] [hx] [mone; mvar 0 1; mvar 1 1] grlex_degree_first W (Forall_cons _ N (Forall_nil _)) (Forall_cons _ V (Forall_nil _)) Eg NoDup3 C118_ex_grlex) as A.
    pose proof (quotient_dim_unique _ _ _ _ _ Q A) as X. discriminate X.
Qed.
(** x^2 - y^2 is homogeneous: for Lex and for RevLex two monomials of degree 1 are standard *)
Definition hh : poly RR := [ex_t 1 1 [2]; ex_t (-1) 1 [0; 2]].
Example C118_ex_homogeneous : Forall (whomog 0 (fun _ => 1%Z)) [hh] /\
  buchberger_algorithm Debug lex_cmp 30 [hh] = Ok [hh] /\ buchberger_algorithm Debug revlex_cmp 30 [hh] = Ok [hh] /\
  leading_term lex_cmp hh = Ok (Some (ex_t 1 1 [2])) /\ leading_term revlex_cmp hh = Ok (Some (ex_t (-1) 1 [0; 2])) /\
  (forall m, In m [mvar 0 1; mvar 1 1] <-> std (olt lex_spec) 2 (map (ip rat_spec) [hh]) m /\ (0 | mwdeg (fun _ => 1) m - 1)%Z).
Proof.
  split; [constructor; [apply ex_whomog; reflexivity|constructor]|]. split; [reflexivity|]. split; [reflexivity|]. split; [reflexivity|]. split; [reflexivity|].
  intros m. assert (Ll : is_lm (olt lex_spec) (ip rat_spec hh) (mvar 0 2)) by (apply (ex_lead _ (ex_t 1 1 [2])); [apply ex_clean; reflexivity|reflexivity]).
  assert (T : mwdeg (fun _ => 1%Z) m = Z.of_nat (mtot m)).
  { unfold mwdeg, mtot. induction (mlist m) as [|x l IH]; [reflexivity|]. cbn [wdeg list_sum fold_right] in *. rewrite IH. unfold list_sum. lia. }
  cbn [map]. rewrite (std1 (olt lex_spec) (olaws _ lex_spec) 2 _ _ m Ll). split.
  - intros [<-|[<-|[]]]; (split; [split|cbn; apply Z.divide_0_r]); try (apply mvars_one || (apply mvar_vars; lia)); intros D; specialize (D 0); cbn in D; lia.
  - intros [[V D] [q H]]. rewrite T in H. assert (H1 : mtot m = 1) by lia. destruct (deg1 m V ltac:(lia)) as [<-|[H'|[H'|[]]]]; [discriminate H1|left; exact H'|right; left; exact H'].
Qed.

Print Assumptions C118_degree.
Print Assumptions C118_homogeneous.
Print Assumptions C118_independent.
Print Assumptions C118_independent_homogeneous.
Print Assumptions C118_exists.
Print Assumptions C118_lex_refuted.
