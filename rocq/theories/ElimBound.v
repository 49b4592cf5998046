(** * Elimination over Rational: bounds on the numerators and denominators, row by row. *)
From Coq Require Import ZArith QArith Qcanon.
From Verif Require Import Base BaseLemmas IntModel RatModel FieldIface IntProofs RatProofs NumFacts UtilModel MatModel AlgModel MatProofs AlgProofs
  BoundProofs PropBounds ElimShape ElimEntry.
From Coq Require Import Lia.
Local Open Scope Z_scope.

Notation TR := (rat_stab Debug).
(** a well-formed number within the bound *)
Definition okr (A D : Z) (x : R) : Prop := rb A D (x : rat) /\ fwf rat_spec x.
Lemma okr_mono A D A' D' x : A <= A' -> D <= D' -> okr A D x -> okr A' D' x.
Proof. intros L1 L2 [H W]. split; [apply (rb_mono A D); assumption|exact W]. Qed.
Lemma okr_pos A D x : okr A D x -> 0 <= A /\ 1 <= D.
Proof. intros [H _]. exact (rb_nonneg _ _ _ H). Qed.
Lemma okr_add A D B E (x y : R) : okr A D x -> okr B E y -> A * E + B * D <= i64_max -> D * E <= i64_max -> yields (fadd x y) (okr (A * E + B * D) (D * E)).
Proof.
  intros [H1 W1] [H2 W2] L1 L2. destruct (rb_add A D B E x y H1 H2 L1 L2) as (r & Er & Hr). exists r. split; [exact Er|]. split; [exact Hr|].
  apply (safe_val _ _ _ (add_ok _ _ rat_spec x y W1 W2) Er).
Qed.
Lemma okr_mul A D B E (x y : R) : okr A D x -> okr B E y -> A * B <= i64_max -> D * E <= i64_max -> yields (fmul x y) (okr (A * B) (D * E)).
Proof.
  intros [H1 W1] [H2 W2] L1 L2. destruct (rb_mul A D B E x y H1 H2 L1 L2) as (r & Er & Hr). exists r. split; [exact Er|]. split; [exact Hr|].
  apply (safe_val _ _ _ (mul_ok _ _ rat_spec x y W1 W2) Er).
Qed.
Lemma okr_neg A D (x : R) : okr A D x -> A <= i64_max -> D <= i64_max -> yields (fsub (f0 : R) x) (okr A D).
Proof.
  intros [H1 W1] L1 L2. destruct (rb_sub 0 1 A D rat_zero x (rb_zero 0 1 (Z.le_refl 0) (Z.le_refl 1)) H1) as (r & Er & Hr); [lia|lia|].
  exists r. split; [exact Er|]. split; [apply (rb_mono _ _ A D) in Hr; [exact Hr|lia|lia]|].
  apply (safe_val _ _ _ (sub_ok _ _ rat_spec f0 x (wf0 _ _ rat_spec) W1) Er).
Qed.
Lemma okr_inv A D (x : R) : okr A D x -> feps TR x f0 = false -> A <= i64_max -> D <= i64_max -> yields (fdiv (f1 : R) x) (okr D A).
Proof.
  intros [H1 W1] N L1 L2. destruct H1 as [Hn Hd].
  assert (Nz : den rat_spec x <> k0) by (intros E; apply (eps0 _ _ rat_stab_spec x W1) in E; congruence).
  assert (Nn : numer x <> 0).
  { intros E. apply Nz. apply den_zero_iff; [apply W1|exact E]. }
  assert (Z : fdiv (f1 : R) x = rat_new Debug (denom x) (numer x)).
  { cbn [fdiv rat_impl f1]. unfold rat_div, rat_one, int_mul. cbn [numer denom].
    rewrite !Z.mul_1_l, (chk64_abs (denom x) D) by lia. cbn [bind]. rewrite (chk64_abs (numer x) A) by lia. reflexivity. }
  destruct (rb_new (denom x) (numer x) D A Nn) as (r & Er & Hr); [lia|exact Hn|lia|lia|].
  exists r. rewrite Z. split; [exact Er|]. split; [exact Hr|]. rewrite <- Z in Er.
  apply (safe_val _ _ _ (FieldIface.div_ok _ _ rat_spec f1 x (wf1 _ _ rat_spec) W1 Nz) Er).
Qed.
Lemma okr_stab A D (x y : R) : okr A D x -> okr A D y -> A + D <= i64_max -> exists c, fstab TR x y = Ok (Some c).
Proof.
  intros [[H1 H2] _] [[H3 H4] _] L. change (fstab TR x y) with (rat_stability_cmp Debug x y). unfold rat_stability_cmp.
  destruct (rat_eqb x rat_zero); [eauto|]. destruct (rat_eqb y rat_zero); [eauto|]. unfold int_abs, int_add.
  assert (G : forall z B, Z.abs z <= B -> B <= i64_max -> chk64 Debug (Z.abs z) = Ok (Z.abs z)) by (intros z B Hz HB; apply (chk64_abs _ B); lia).
  assert (S : forall x0 y0 B, Z.abs x0 + Z.abs y0 <= B -> B <= i64_max -> chk64 Debug (Z.abs x0 + Z.abs y0) = Ok (Z.abs x0 + Z.abs y0)) by (intros x0 y0 B Hz HB; apply (chk64_abs _ B); lia).
  rewrite (G (numer y) A) by lia. cbn [bind]. rewrite (G (denom y) D) by lia. cbn [bind]. rewrite (S (numer y) (denom y) (A + D)) by lia. cbn [bind].
  rewrite (G (numer x) A) by lia. cbn [bind]. rewrite (G (denom x) D) by lia. cbn [bind]. rewrite (S (numer x) (denom x) (A + D)) by lia. cbn [bind]. eauto.
Qed.

Lemma yields_seq {ST : Type} (f : ST -> nat -> res ST) (I : nat -> ST -> Prop) : forall len start s, I 0%nat s ->
  (forall k s, (k < len)%nat -> I k s -> yields (f s (start + k)%nat) (I (k + 1)%nat)) -> yields (foldM f (seq start len) s) (I len).
Proof.
  intros len. revert I. induction len as [|len IH]; intros I start s H0 H; cbn [seq foldM]; [apply yields_Ok; exact H0|].
  eapply yields_bind; [rewrite <- (Nat.add_0_r start); apply H; [lia|exact H0]|]. intros s1 H1. cbn [Nat.add] in H1.
  apply (IH (fun k => I (S k)) (S start) s1); [exact H1|]. intros k s2 Hk H2. replace (S start + k)%nat with (start + S k)%nat by lia. apply (H (S k)); [lia|exact H2].
Qed.
Lemma yields_get {B : Type} n m (a : mat R) r c (f : R -> res B) Q : shp n m a -> (r < n)%nat -> (c < m)%nat -> yields (f (mentry a r c)) Q -> yields (bind (mget a r c) f) Q.
Proof. intros (S & <- & <-) Hr Hc H. rewrite mget_ok by assumption. exact H. Qed.
Lemma yields_set n m (a : mat R) r c x : shp n m a -> (r < n)%nat -> (c < m)%nat ->
  yields (mset a r c x) (fun a' => shp n m a' /\ forall i j, (i < n)%nat -> (j < m)%nat -> mentry a' i j = if ((i =? r)%nat && (j =? c)%nat)%bool then x else mentry a i j).
Proof.
  intros (S & R1 & C1) Hr Hc. destruct (mset_ok a r c x S) as (b & Eb & Sb & Rb & Cb & H); [lia..|]. exists b. split; [exact Eb|].
  split; [split; [exact Sb|split; congruence]|]. intros i j Hi Hj. apply H; lia.
Qed.

(** ** rows with their bounds *)
Definition bd (n m : nat) (P Q : nat -> Z) (a : mat R) : Prop := shp n m a /\ forall i j, (i < n)%nat -> (j < m)%nat -> okr (P i) (Q i) (mentry a i j).
Definition upd (P : nat -> Z) (r : nat) (v : Z) (i : nat) : Z := if (i =? r)%nat then v else P i.
Lemma bd_mono n m P Q P' Q' a : (forall i, (i < n)%nat -> P i <= P' i /\ Q i <= Q' i) -> bd n m P Q a -> bd n m P' Q' a.
Proof. intros H [S B]. split; [exact S|]. intros i j Hi Hj. destruct (H i Hi). apply (okr_mono (P i) (Q i)); auto. Qed.
Lemma scale_row_bd n m P Q a r x A D : bd n m P Q a -> (r < n)%nat -> okr A D x -> A * P r <= i64_max -> D * Q r <= i64_max ->
  yields (mat_scale_row a r x) (bd n m (upd P r (A * P r)) (upd Q r (D * Q r))).
Proof.
  intros [S H] Hr Hx L1 L2. unfold mat_scale_row. pose proof S as (_ & _ & ->).
  eapply yields_mono; [apply (yields_seq _ (fun k b => shp n m b /\ forall i j, (i < n)%nat -> (j < m)%nat ->
    if ((i =? r)%nat && (j <? k)%nat)%bool then okr (A * P r) (D * Q r) (mentry b i j) else mentry b i j = mentry a i j))|].
  - split; [exact S|]. intros i j _ _. destruct (Nat.ltb_spec j 0); [lia|]. rewrite andb_false_r. reflexivity.
  - intros k b Hk [Sb Ib]. cbn [Nat.add]. apply (yields_get n m); [exact Sb|exact Hr|exact Hk|].
    pose proof (Ib r k Hr Hk) as E. rewrite Nat.ltb_irrefl, andb_false_r in E. rewrite E.
    eapply yields_bind; [apply (okr_mul A D (P r) (Q r)); [exact Hx|apply H; assumption|exact L1|exact L2]|]. intros y Hy.
    eapply yields_mono; [apply (yields_set n m); [exact Sb|exact Hr|exact Hk]|]. intros b' [Sb' Ib']. split; [exact Sb'|].
    intros i j Hi Hj. rewrite Ib' by assumption. specialize (Ib i j Hi Hj).
    destruct (Nat.eqb_spec i r) as [->|Ni]; cbn [andb] in *; [|exact Ib].
    destruct (Nat.ltb_spec j k), (Nat.ltb_spec j (k + 1)), (Nat.eqb_spec j k); try lia; try exact Ib. exact Hy.
  - intros b [Sb Ib]. split; [exact Sb|]. intros i j Hi Hj. specialize (Ib i j Hi Hj). destruct (Nat.ltb_spec j m); [|lia]. rewrite andb_true_r in Ib.
    unfold upd. destruct (Nat.eqb_spec i r) as [->|Ni]; [exact Ib|]. rewrite Ib. apply H; assumption.
Qed.
Lemma permute_rows_bd n m P Q a s t : bd n m P Q a -> (s < n)%nat -> (t < n)%nat -> P s = P t -> Q s = Q t -> yields (mat_permute_rows a s t) (bd n m P Q).
Proof.
  intros [S H] Hs Ht EP EQ. unfold mat_permute_rows. pose proof S as (_ & _ & ->).
  eapply yields_mono; [apply (yields_seq _ (fun k b => bd n m P Q b))|].
  - split; [exact S|exact H].
  - intros k b Hk [Sb Ib]. cbn [Nat.add]. apply (yields_get n m); [exact Sb|exact Hs|exact Hk|]. apply (yields_get n m); [exact Sb|exact Ht|exact Hk|].
    eapply yields_bind; [apply (yields_set n m); [exact Sb|exact Hs|exact Hk]|]. intros b1 [S1 I1].
    eapply yields_mono; [apply (yields_set n m); [exact S1|exact Ht|exact Hk]|]. intros b2 [S2 I2]. split; [exact S2|].
    intros i j Hi Hj. rewrite I2, I1 by assumption.
    destruct (Nat.eqb_spec i t) as [->|Nt]; destruct (Nat.eqb_spec j k) as [->|Nj]; cbn [andb]; rewrite ?andb_false_r, ?andb_true_r.
    + rewrite <- EP, <- EQ. apply Ib; assumption.
    + apply Ib; assumption.
    + destruct (Nat.eqb_spec i s) as [->|Ns]; [rewrite EP, EQ; apply Ib; assumption|apply Ib; assumption].
    + apply Ib; assumption.
  - intros b Hb. exact Hb.
Qed.
Lemma replace_row_bd n m P Q a s t x A D : bd n m P Q a -> (s < n)%nat -> (t < n)%nat -> s <> t -> okr A D x ->
  P s * A <= i64_max -> Q s * D <= i64_max -> P t * (Q s * D) + P s * A * Q t <= i64_max -> Q t * (Q s * D) <= i64_max ->
  yields (mat_replace_row a s t x) (bd n m (upd P t (P t * (Q s * D) + P s * A * Q t)) (upd Q t (Q t * (Q s * D)))).
Proof.
  intros [S H] Hs Ht N Hx L1 L2 L3 L4. unfold mat_replace_row. pose proof S as (_ & _ & ->).
  eapply yields_mono; [apply (yields_seq _ (fun k b => shp n m b /\ forall i j, (i < n)%nat -> (j < m)%nat ->
    if ((i =? t)%nat && (j <? k)%nat)%bool then okr (P t * (Q s * D) + P s * A * Q t) (Q t * (Q s * D)) (mentry b i j) else mentry b i j = mentry a i j))|].
  - split; [exact S|]. intros i j _ _. destruct (Nat.ltb_spec j 0); [lia|]. rewrite andb_false_r. reflexivity.
  - intros k b Hk [Sb Ib]. cbn [Nat.add]. apply (yields_get n m); [exact Sb|exact Ht|exact Hk|]. apply (yields_get n m); [exact Sb|exact Hs|exact Hk|].
    pose proof (Ib t k Ht Hk) as E. rewrite Nat.ltb_irrefl, andb_false_r in E. rewrite E.
    pose proof (Ib s k Hs Hk) as E'. rewrite Nat.ltb_irrefl, andb_false_r in E'. rewrite E'.
    eapply yields_bind; [apply (okr_mul (P s) (Q s) A D); [apply H; assumption|exact Hx|exact L1|exact L2]|]. intros p Hp.
    eapply yields_bind; [apply (okr_add (P t) (Q t) (P s * A) (Q s * D)); [apply H; assumption|exact Hp|exact L3|exact L4]|]. intros y Hy.
    eapply yields_mono; [apply (yields_set n m); [exact Sb|exact Ht|exact Hk]|]. intros b' [Sb' Ib']. split; [exact Sb'|].
    intros i j Hi Hj. rewrite Ib' by assumption. specialize (Ib i j Hi Hj).
    destruct (Nat.eqb_spec i t) as [->|Ni]; cbn [andb] in *; [|exact Ib].
    destruct (Nat.ltb_spec j k), (Nat.ltb_spec j (k + 1)), (Nat.eqb_spec j k); try lia; try exact Ib. exact Hy.
  - intros b [Sb Ib]. split; [exact Sb|]. intros i j Hi Hj. specialize (Ib i j Hi Hj). destruct (Nat.ltb_spec j m); [|lia]. rewrite andb_true_r in Ib.
    unfold upd. destruct (Nat.eqb_spec i t) as [->|Ni]; [exact Ib|]. rewrite Ib. apply H; assumption.
Qed.

(** ** the choice of the pivot *)
Lemma skipn_sq n r : (r <= n)%nat -> skipn r (seq 0 n) = seq r (n - r).
Proof.
  intros H. replace n with (r + (n - r))%nat at 1 by lia. rewrite seq_app, skipn_app, skipn_all2 by (rewrite seq_length; lia).
  rewrite seq_length, Nat.sub_diag. reflexivity.
Qed.
Lemma max_index_yields (le : R -> R -> res (option comparison)) (l : list R) : l <> [] ->
  (forall x y, In x l -> In y l -> (2 <= length l)%nat -> exists c, le x y = Ok (Some c)) -> yields (get_max_index le l) (fun i => (i < length l)%nat).
Proof.
  intros N H. unfold get_max_index, max_by, enumerate. destruct l as [|x0 l]; [congruence|]. cbn [length seq combine].
  assert (G : forall ps p, (fst p < S (length l))%nat -> In (snd p) (x0 :: l) -> (forall q, In q ps -> (fst q < S (length l))%nat /\ In (snd q) (x0 :: l)) -> (ps <> [] -> (1 <= length l)%nat) ->
    yields (foldM (fun best y : nat * R => c <- (c <- le (snd best) (snd y) ;; unwrap c) ;; Ok (match c with Gt => best | _ => y end)) ps p) (fun q => (fst q < S (length l))%nat)).
  { induction ps as [|q ps IH]; intros p Hp Ip Hps Hl; cbn [foldM]; [apply yields_Ok; exact Hp|].
    destruct (Hps q (or_introl eq_refl)) as [Hq Iq]. destruct (H (snd p) (snd q) Ip Iq) as [c Ec]; [cbn [length]; specialize (Hl ltac:(discriminate)); lia|].
    rewrite Ec. cbn [bind unwrap].
    assert (Hl' : ps <> [] -> (1 <= length l)%nat) by (intros _; apply Hl; discriminate).
    assert (Hps' : forall q, In q ps -> (fst q < S (length l))%nat /\ In (snd q) (x0 :: l)) by (intros q' Iq'; apply Hps; right; exact Iq').
    destruct c; cbn [bind]; apply IH; assumption. }
  rewrite bind_assoc. eapply yields_bind; [apply (G (combine (seq 1 (length l)) l) (0%nat, x0))|].
  - cbn [fst]. lia.
  - left. reflexivity.
  - intros [j y] Iq. split; cbn [fst snd]; [apply in_combine_l, in_seq in Iq; lia|apply in_combine_r in Iq; right; exact Iq].
  - destruct l; cbn [length seq combine]; [congruence|lia].
  - intros q Hq. cbn [bind unwrap]. apply yields_Ok. exact Hq.
Qed.
Lemma stable_bd n m P Q a c r A D : bd n m P Q a -> (c < m)%nat -> (r < n)%nat ->
  (forall i, (r <= i < n)%nat -> P i = A /\ Q i = D) -> ((r + 1 < n)%nat -> A + D <= i64_max) ->
  yields (stable_column_index TR a c r) (fun o => match o with Some (i, x) => (r <= i < n)%nat /\ okr A D x /\ feps TR x f0 = false | None => True end).
Proof.
  intros [S H] Hc Hr HP L. unfold stable_column_index. pose proof S as (Sh & Rn & Cm).
  rewrite col_list_ok by (rewrite ?Cm; assumption). cbn [bind].
  set (l := skipn r _). assert (Ll : length l = (n - r)%nat) by (unfold l; rewrite skipn_length, map_length, seq_length, Rn; reflexivity).
  eapply yields_bind; [apply (max_index_yields (fstab TR) l)|].
  - intros E. rewrite E in Ll. cbn in Ll. lia.
  - intros x y Ix Iy L2. rewrite Ll in L2.
    assert (G : forall z, In z l -> okr A D z).
    { intros z Iz. unfold l in Iz. rewrite skipn_map, Rn, skipn_sq in Iz by lia. apply in_map_iff in Iz as (i & <- & Ii). apply in_seq in Ii.
      destruct (HP i ltac:(lia)) as [<- <-]. apply H; lia. }
    apply (okr_stab A D); [apply G; exact Ix|apply G; exact Iy|apply L; lia].
  - intros i Hi. cbv beta in Hi. rewrite Ll in Hi. apply (yields_get n m); [exact S|lia|exact Hc|]. apply yields_Ok.
    destruct (feps TR (mentry a (i + r) c) f0) eqn:E; [exact I|]. split; [lia|]. split; [|exact E].
    destruct (HP (i + r)%nat ltac:(lia)) as [<- <-]. apply H; lia.
Qed.

(** ** clearing a column: both matrices of a form *)
Definition fbd (n m : nat) (P Q : nat -> Z) (s : @form R) : Prop := bd n n P Q (fp s) /\ bd n m P Q (fb s).
Definition hitP (P Q : nat -> Z) (r t : nat) : Z := P t * (Q r * Q t) + P r * P t * Q t.
Definition hitQ (P Q : nat -> Z) (r t : nat) : Z := Q t * (Q r * Q t).
Definition hit (lo hi : nat) (N P : nat -> Z) (i : nat) : Z := if ((lo <=? i) && (i <? hi))%nat%bool then N i else P i.
Lemma upd_hit lo k (N P : nat -> Z) v : N (lo + k)%nat = v -> forall i, upd (hit lo (lo + k) N P) (lo + k) v i = hit lo (lo + (k + 1)) N P i.
Proof.
  intros <- i. unfold upd, hit. destruct (Nat.eqb_spec i (lo + k)) as [->|Ni].
  - destruct (Nat.leb_spec lo (lo + k)), (Nat.ltb_spec (lo + k) (lo + (k + 1))); try lia. reflexivity.
  - destruct (Nat.leb_spec lo i), (Nat.ltb_spec i (lo + k)), (Nat.ltb_spec i (lo + (k + 1))); try lia; reflexivity.
Qed.
Lemma hit_ge (P Q : nat -> Z) r t : (forall i, 1 <= P i /\ 1 <= Q i) -> P t <= hitP P Q r t /\ Q t <= hitQ P Q r t.
Proof.
  intros Pos. destruct (Pos r) as [p1 q1]. destruct (Pos t) as [p2 q2]. unfold hitP, hitQ.
  assert (1 <= Q r * Q t) by nia. assert (1 <= P r * P t) by nia. split; nia.
Qed.
Lemma hit_out lo hi N P i : (i < lo \/ hi <= i)%nat -> hit lo hi N P i = P i.
Proof. intros H. unfold hit. destruct (Nat.leb_spec lo i), (Nat.ltb_spec i hi); try lia; reflexivity. Qed.
(** one row of the loop *)
Lemma replace_hit n m P Q lo len r (a : mat R) k x :
  (r < n)%nat -> (r < lo \/ lo + len <= r)%nat -> (lo + len <= n)%nat -> (k < len)%nat -> (forall i, 1 <= P i /\ 1 <= Q i) ->
  (forall t, (lo <= t < lo + len)%nat -> hitP P Q r t <= i64_max /\ hitQ P Q r t <= i64_max) ->
  okr (P (lo + k)%nat) (Q (lo + k)%nat) x ->
  bd n m (hit lo (lo + k) (hitP P Q r) P) (hit lo (lo + k) (hitQ P Q r) Q) a ->
  yields (mat_replace_row a r (lo + k) x) (bd n m (hit lo (lo + (k + 1)) (hitP P Q r) P) (hit lo (lo + (k + 1)) (hitQ P Q r) Q)).
Proof.
  intros Hr Hout Hn Hk Pos Lim Hx Hb. destruct (Lim (lo + k)%nat ltac:(lia)) as [L1 L2]. destruct (Pos r) as [p1 q1]. destruct (Pos (lo + k)%nat) as [p2 q2].
  assert (Er : forall N P0, hit lo (lo + k) N P0 r = P0 r) by (intros; apply hit_out; lia).
  assert (Et : forall N P0, hit lo (lo + k) N P0 (lo + k)%nat = P0 (lo + k)%nat) by (intros; apply hit_out; lia).
  unfold hitP, hitQ in L1, L2.
  eapply yields_mono; [apply (replace_row_bd n m _ _ a r (lo + k) x (P (lo + k)%nat) (Q (lo + k)%nat) Hb)|]; rewrite ?Er, ?Et; try assumption; try lia; try nia.
  intros b Hb'. eapply bd_mono; [|exact Hb']. intros i _. rewrite ?Er, ?Et.
  rewrite (upd_hit lo k (hitP P Q r) P) by reflexivity. rewrite (upd_hit lo k (hitQ P Q r) Q) by reflexivity. lia.
Qed.
Lemma form_replace_bd n m P Q lo len r c s :
  (r < n)%nat -> (c < m)%nat -> (r < lo \/ lo + len <= r)%nat -> (lo + len <= n)%nat -> (forall i, 1 <= P i /\ 1 <= Q i) ->
  (forall t, (lo <= t < lo + len)%nat -> hitP P Q r t <= i64_max /\ hitQ P Q r t <= i64_max) ->
  fbd n m P Q s -> yields (form_replace s r c (seq lo len)) (fbd n m (hit lo (lo + len) (hitP P Q r) P) (hit lo (lo + len) (hitQ P Q r) Q)).
Proof.
  intros Hr Hc Hout Hn Pos Lim Hs. unfold form_replace.
  apply (yields_seq _ (fun k s => fbd n m (hit lo (lo + k) (hitP P Q r) P) (hit lo (lo + k) (hitQ P Q r) Q) s)).
  - destruct Hs as [H1 H2]. split; (eapply bd_mono; [|eassumption]); intros i _; rewrite !hit_out by lia; lia.
  - intros k s' Hk [Hp Hb]. pose proof Hb as [Sb Ib]. apply (yields_get n m); [exact Sb|lia|exact Hc|].
    assert (Ox : okr (P (lo + k)%nat) (Q (lo + k)%nat) (mentry (fb s') (lo + k) c)).
    { pose proof (Ib (lo + k)%nat c ltac:(lia) Hc) as O. rewrite !hit_out in O by lia. exact O. }
    destruct (Lim (lo + k)%nat ltac:(lia)) as [L1 L2]. destruct (Pos r) as [p1 q1]. destruct (Pos (lo + k)%nat) as [p2 q2]. 
    destruct (hit_ge P Q r (lo + k) Pos) as [G1 G2].
    assert (ON : yields (fsub (f0 : R) (mentry (fb s') (lo + k) c)) (okr (P (lo + k)%nat) (Q (lo + k)%nat))) by (apply okr_neg; [exact Ox|lia|lia]).
    eapply yields_bind; [exact ON|]. intros nx Hnx.
    eapply yields_bind; [apply (replace_hit n n P Q lo len r); eassumption|]. intros p' Hp'.
    eapply yields_bind; [exact ON|]. intros nx' Hnx'.
    eapply yields_bind; [apply (replace_hit n m P Q lo len r); eassumption|]. intros b' Hb'.
    apply yields_Ok. split; assumption.
Qed.

(** ** the growth of the bounds *)
(** the bound (numerator, denominator) for the rows that hold no pivot yet, after [k] pivots *)
Fixpoint grow (A D : Z) (k : nat) : Z * Z :=
  match k with O => (A, D) | S k => let (N, M) := grow A D k in (2 * N * N * (M * M), N * (M * M * M)) end.
(** the bound for both numbers of the row that holds pivot [k] *)
Definition piv (A D : Z) (k : nat) : Z := fst (grow A D k) * snd (grow A D k).
Lemma grow_S A D k : grow A D (S k) = (2 * fst (grow A D k) * fst (grow A D k) * (snd (grow A D k) * snd (grow A D k)), fst (grow A D k) * (snd (grow A D k) * snd (grow A D k) * snd (grow A D k))).
Proof. cbn [grow]. destruct (grow A D k). reflexivity. Qed.
Lemma grow_pos A D k : 1 <= A -> 1 <= D -> 1 <= fst (grow A D k) /\ 1 <= snd (grow A D k).
Proof.
  intros HA HD. induction k as [|k [I1 I2]]; [cbn; lia|]. rewrite grow_S. cbn [fst snd]. revert I1 I2. generalize (fst (grow A D k)) (snd (grow A D k)). intros N M HN HM.
  assert (1 <= N * N) by nia. assert (1 <= M * M) by nia. assert (1 <= M * M * M) by nia. split; nia.
Qed.
Lemma piv_pos A D k : 1 <= A -> 1 <= D -> 1 <= piv A D k.
Proof. intros HA HD. destruct (grow_pos A D k HA HD). unfold piv. nia. Qed.
Lemma piv_ge A D k : 1 <= A -> 1 <= D -> fst (grow A D k) <= piv A D k /\ snd (grow A D k) <= piv A D k.
Proof. intros HA HD. destruct (grow_pos A D k HA HD). unfold piv. nia. Qed.
Lemma piv_S A D k : 1 <= A -> 1 <= D -> 2 * piv A D k <= piv A D (S k) /\ 2 * piv A D k * piv A D k <= piv A D (S k).
Proof.
  intros HA HD. destruct (grow_pos A D k HA HD) as [I1 I2]. destruct (grow_pos A D (S k) HA HD) as [_ J]. revert J. unfold piv. rewrite grow_S. cbn [fst snd]. revert I1 I2.
  generalize (fst (grow A D k)) (snd (grow A D k)). intros N M HN HM J. assert (1 <= N * M) by nia.
  assert (2 * (N * M) * (N * M) <= 2 * N * N * (M * M) * (N * (M * M * M))) by nia. split; nia.
Qed.
Lemma piv_mono A D j k : 1 <= A -> 1 <= D -> (j <= k)%nat -> piv A D j <= piv A D k.
Proof. intros HA HD H. induction H as [|k H IH]; [lia|]. pose proof (piv_S A D k HA HD). pose proof (piv_pos A D k HA HD). lia. Qed.
(** the bounds after [r] pivots *)
Definition prP (A D : Z) (r i : nat) : Z := if (i <? r)%nat then piv A D i else fst (grow A D r).
Definition prQ (A D : Z) (r i : nat) : Z := if (i <? r)%nat then piv A D i else snd (grow A D r).
Lemma pr_pos A D r i : 1 <= A -> 1 <= D -> 1 <= prP A D r i /\ 1 <= prQ A D r i.
Proof. intros HA HD. unfold prP, prQ. destruct (i <? r)%nat; [pose proof (piv_pos A D i HA HD); lia|apply grow_pos; assumption]. Qed.

Section Elim.
Variables (n m : nat) (A D : Z).
Hypotheses (HA : 1 <= A) (HD : 1 <= D) (Lim : piv A D (Nat.min (n - 1) m) <= i64_max).
Notation Pr := (prP A D).
Notation Qr := (prQ A D).
Notation N_ r := (fst (grow A D r)).
Notation D_ r := (snd (grow A D r)).

Lemma lim_piv r : (r < n)%nat -> (r < m)%nat -> piv A D r <= i64_max /\ N_ r <= i64_max /\ D_ r <= i64_max.
Proof.
  intros Hr Hm. pose proof (piv_mono A D r (Nat.min (n - 1) m) HA HD ltac:(lia)) as H. pose proof (piv_ge A D r HA HD) as [G1 G2]. lia.
Qed.
Lemma lim_next r : (r + 1 < n)%nat -> (r < m)%nat -> N_ r + D_ r <= i64_max /\ N_ (S r) <= i64_max /\ D_ (S r) <= i64_max.
Proof.
  intros Hr Hm. pose proof (piv_mono A D (S r) (Nat.min (n - 1) m) HA HD ltac:(lia)) as H. pose proof (piv_ge A D (S r) HA HD) as [G1 G2].
  pose proof (piv_ge A D r HA HD) as [G3 G4]. pose proof (piv_S A D r HA HD) as [G5 _]. lia.
Qed.
Lemma pr_ge r i : (r <= i)%nat -> Pr r i = N_ r /\ Qr r i = D_ r.
Proof. intros H. unfold prP, prQ. destruct (Nat.ltb_spec i r); [lia|]. split; reflexivity. Qed.
(** the rows after the scaling of the pivot's row *)
Definition P1 r := upd (Pr r) r (piv A D r).
Definition Q1 r := upd (Qr r) r (piv A D r).
Lemma PQ1_pos r i : 1 <= P1 r i /\ 1 <= Q1 r i.
Proof. unfold P1, Q1, upd. pose proof (piv_pos A D r HA HD). destruct (i =? r)%nat; [lia|apply pr_pos; assumption]. Qed.
Lemma hit1 r t : (r < t)%nat -> hitP (P1 r) (Q1 r) r t = N_ (S r) /\ hitQ (P1 r) (Q1 r) r t = D_ (S r).
Proof.
  intros H. unfold hitP, hitQ, P1, Q1, upd. rewrite Nat.eqb_refl. destruct (Nat.eqb_spec t r); [lia|]. destruct (pr_ge r t ltac:(lia)) as [-> ->].
  rewrite grow_S. cbn [fst snd]. unfold piv. split; ring.
Qed.
Lemma hit1_lim r : (r < m)%nat -> forall t, (r + 1 <= t < r + 1 + (n - (r + 1)))%nat -> hitP (P1 r) (Q1 r) r t <= i64_max /\ hitQ (P1 r) (Q1 r) r t <= i64_max.
Proof. intros Hm t Ht. destruct (hit1 r t ltac:(lia)) as [-> ->]. destruct (lim_next r ltac:(lia) Hm) as (_ & L1 & L2). split; assumption. Qed.
Lemma hit1_pr r i : (i < n)%nat ->
  hit (r + 1) (r + 1 + (n - (r + 1))) (hitP (P1 r) (Q1 r) r) (P1 r) i <= Pr (r + 1) i /\ hit (r + 1) (r + 1 + (n - (r + 1))) (hitQ (P1 r) (Q1 r) r) (Q1 r) i <= Qr (r + 1) i.
Proof.
  intros Hi. destruct (Nat.le_gt_cases (r + 1) i) as [H|H].
  - unfold hit. destruct (Nat.leb_spec (r + 1) i), (Nat.ltb_spec i (r + 1 + (n - (r + 1)))); try lia. cbn [andb].
    destruct (hit1 r i ltac:(lia)) as [-> ->]. destruct (pr_ge (r + 1) i H) as [-> ->]. replace (r + 1)%nat with (S r) by lia. lia.
  - rewrite !hit_out by lia. unfold P1, Q1, upd, prP, prQ. destruct (Nat.ltb_spec i (r + 1)); [|lia].
    destruct (Nat.eqb_spec i r) as [->|Ni]; [lia|]. destruct (Nat.ltb_spec i r); lia.
Qed.
Lemma permute_pr w a r si : (r <= si < n)%nat -> bd n w (Pr r) (Qr r) a -> yields (mat_permute_rows a r si) (bd n w (Pr r) (Qr r)).
Proof.
  intros H Ha. destruct (pr_ge r r ltac:(lia)) as [E1 E2]. destruct (pr_ge r si ltac:(lia)) as [E3 E4]. apply permute_rows_bd; [exact Ha|lia|lia|congruence|congruence].
Qed.
Lemma scale_pr w a r i : (r < n)%nat -> (r < m)%nat -> okr (D_ r) (N_ r) i -> bd n w (Pr r) (Qr r) a -> yields (mat_scale_row a r i) (bd n w (P1 r) (Q1 r)).
Proof.
  intros Hr Hm Hi Ha. destruct (pr_ge r r ltac:(lia)) as [E1 E2]. destruct (lim_piv r Hr Hm) as (L & _). unfold piv in L.
  eapply yields_mono; [apply (scale_row_bd n w _ _ a r i (D_ r) (N_ r) Ha Hr Hi)|].
  - rewrite E1. lia.
  - rewrite E2. lia.
  - intros b Hb. eapply bd_mono; [|exact Hb]. intros j _. rewrite E1, E2. unfold P1, Q1, upd, piv. destruct (j =? r)%nat; nia.
Qed.

Definition ech_inv (c : nat) (s : nat * @form R) : Prop := (fst s <= c)%nat /\ (fst s <= n)%nat /\ fbd n m (Pr (fst s)) (Qr (fst s)) (snd s).
Lemma ech_step_bd s c : (c < m)%nat -> ech_inv c s -> yields (ech_step TR n s c) (ech_inv (c + 1)).
Proof.
  intros Hc. destruct s as [r f]. intros (H1 & H2 & [Hp Hb]). cbn [fst snd] in *. unfold ech_step.
  destruct (Nat.leb_spec n r) as [L|L]; [apply yields_Ok; split; [cbn; lia|split; [cbn; lia|split; assumption]]|].
  eapply yields_bind; [apply (stable_bd n m (Pr r) (Qr r) (fb f) c r (N_ r) (D_ r) Hb Hc L)|].
  - intros i Hi. apply pr_ge. lia.
  - intros Hn. apply lim_next; lia.
  - intros [[si x]|] Hs; [|apply yields_Ok; split; [cbn; lia|split; [cbn; lia|split; assumption]]].
    destruct Hs as (Hsi & Hx & Nx). destruct (lim_piv r L ltac:(lia)) as (L1 & L2 & L3).
    eapply (yields_bind _ _ (fbd n m (Pr r) (Qr r))).
    { unfold form_permute_rows. eapply yields_bind; [apply (permute_pr n _ r si Hsi Hp)|]. intros p Hp'.
      eapply yields_bind; [apply (permute_pr m _ r si Hsi Hb)|]. intros b Hb'. apply yields_Ok. split; assumption. }
    intros g1 [Hp1 Hb1]. eapply yields_bind; [apply (okr_inv _ _ x Hx Nx L2 L3)|]. intros i Hi.
    eapply (yields_bind _ _ (fbd n m (P1 r) (Q1 r))).
    { unfold form_scale_row. eapply yields_bind; [apply (scale_pr n _ r i L ltac:(lia) Hi Hp1)|]. intros p Hp'.
      eapply yields_bind; [apply (scale_pr m _ r i L ltac:(lia) Hi Hb1)|]. intros b Hb'. apply yields_Ok. split; assumption. }
    intros g2 H2'. pose proof H2' as [_ [(_ & Rn & _) _]]. unfold form_replace_under. rewrite Rn.
    eapply yields_bind; [apply (form_replace_bd n m (P1 r) (Q1 r) (r + 1) (n - (r + 1)) r c g2); [exact L|exact Hc|lia|lia|intros i0; apply PQ1_pos|apply hit1_lim; lia|exact H2']|].
    intros g3 [Hp3 Hb3]. apply yields_Ok. unfold ech_inv. cbn [fst snd]. split; [lia|]. split; [lia|].
    split; (eapply bd_mono; [|eassumption]); intros j Hj; apply hit1_pr; exact Hj.
Qed.
Lemma identity_bd : bd n n (Pr 0) (Qr 0) (mat_identity n).
Proof.
  split; [apply identity_shp|]. intros i j Hi Hj. unfold mat_identity. rewrite from_fn_entry by assumption.
  destruct (pr_ge 0 i ltac:(lia)) as [-> ->]. cbn [grow fst snd].
  destruct (i =? j)%nat; split; try (apply rb_one; lia); try (apply rb_zero; lia); [apply (wf1 _ _ rat_spec)|apply (wf0 _ _ rat_spec)].
Qed.
Definition entries_in (a : mat R) : Prop := shp n m a /\ forall i j, (i < n)%nat -> (j < m)%nat -> okr A D (mentry a i j).
Lemma entries_bd a : entries_in a -> bd n m (Pr 0) (Qr 0) a.
Proof. intros [S H]. split; [exact S|]. intros i j Hi Hj. destruct (pr_ge 0 i ltac:(lia)) as [-> ->]. apply H; assumption. Qed.
(** the bound for row [i] of the result *)
Definition rowb (i : nat) : Z := piv A D (Nat.min i m).
Lemma pr_rowb r i : (r <= m)%nat -> Pr r i <= rowb i /\ Qr r i <= rowb i.
Proof.
  intros Hr. unfold prP, prQ, rowb. destruct (Nat.ltb_spec i r) as [H|H].
  - rewrite Nat.min_l by lia. lia.
  - pose proof (piv_ge A D r HA HD). pose proof (piv_mono A D r (Nat.min i m) HA HD ltac:(lia)). lia.
Qed.
Lemma ech_final s : ech_inv m s -> fbd n m rowb rowb (snd s).
Proof. intros (H1 & _ & [Hp Hb]). split; (eapply bd_mono; [|eassumption]); intros i _; apply pr_rowb; exact H1. Qed.
Theorem row_echelon_bd a : entries_in a -> yields (mat_row_echelon TR a) (fbd n m rowb rowb).
Proof.
  intros Ha. unfold mat_row_echelon. pose proof Ha as [(_ & Rn & Cm) _]. rewrite Rn, Cm.
  eapply yields_bind; [apply (yields_seq _ ech_inv)|].
  - split; [cbn; lia|]. split; [cbn; lia|]. cbn [fst snd]. split; [apply identity_bd|apply entries_bd; exact Ha].
  - intros k s Hk Hs. apply ech_step_bd; [exact Hk|exact Hs].
  - intros s Hs. apply yields_Ok. apply ech_final. exact Hs.
Qed.

(** ** lu *)
Definition lu_inv (c : nat) (s : nat * @lu_state R) : Prop := (fst s <= c)%nat /\ (fst s <= n)%nat /\ length (lu_p (snd s)) = n /\
  Forall (fun k => (k < n)%nat) (lu_p (snd s)) /\ shp n n (lu_l (snd s)) /\ bd n m (Pr (fst s)) (Qr (fst s)) (lu_u (snd s)).
Lemma lu_step_bd s c : (c < m)%nat -> lu_inv c s -> yields (lu_step TR n s c) (lu_inv (c + 1)).
Proof.
  intros Hc. destruct s as [r f]. intros (H1 & H2 & Hq & Hv & Hl & Hb). cbn [fst snd] in *. unfold lu_step.
  destruct (Nat.leb_spec n r) as [L|L]; [apply yields_Ok; unfold lu_inv; cbn [fst snd]; auto 8 with arith|].
  eapply yields_bind; [apply (stable_bd n m (Pr r) (Qr r) (lu_u f) c r (N_ r) (D_ r) Hb Hc L)|].
  - intros i Hi. apply pr_ge. lia.
  - intros Hn. apply lim_next; lia.
  - intros [[si x]|] Hs; [|apply yields_Ok; unfold lu_inv; cbn [fst snd]; repeat (split; [first [lia|assumption]|]); exact Hb].
    destruct Hs as (Hsi & Hx & Nx). destruct (lim_piv r L ltac:(lia)) as (L1 & L2 & L3).
    eapply (yields_bind _ _ (fun s => length (lu_p s) = n /\ Forall (fun k => (k < n)%nat) (lu_p s) /\ shp n n (lu_l s) /\ bd n m (Pr r) (Qr r) (lu_u s))).
    { unfold lu_permute. eapply yields_bind; [apply outc_val; apply (list_swap_shp False n); [exact Hq|exact Hv|exact L|lia]|]. intros p [Hp1 Hp2].
      eapply yields_bind; [apply (permute_pr m _ r si Hsi Hb)|]. intros b Hb'.
      eapply yields_bind; [apply outc_val; apply permute_under_shp; [exact Hl|exact L|lia]|]. intros l Hl'. apply yields_Ok. cbn. auto. }
    intros g1 (Q1' & V1 & Sl1 & Hb1).
    eapply (yields_bind _ _ (fun s => length (lu_p s) = n /\ Forall (fun k => (k < n)%nat) (lu_p s) /\ shp n n (lu_l s) /\ bd n m (P1 r) (Q1 r) (lu_u s))).
    { unfold lu_scale_row. eapply yields_bind; [apply outc_val; apply (shp_set False n n); [exact Sl1|exact L|exact L]|]. intros l Hl'.
      eapply yields_bind; [apply (okr_inv _ _ x Hx Nx L2 L3)|]. intros i Hi.
      eapply yields_bind; [apply (scale_pr m _ r i L ltac:(lia) Hi Hb1)|]. intros b Hb'. apply yields_Ok. cbn. auto. }
    intros g2 (Q2 & V2 & Sl2 & Hb2). unfold lu_replace_col_under_row. pose proof Hb2 as [(_ & Rn & _) _]. rewrite Rn.
    eapply yields_bind; [apply (yields_seq _ (fun k s => length (lu_p s) = n /\ Forall (fun k => (k < n)%nat) (lu_p s) /\ shp n n (lu_l s) /\
      bd n m (hit (r + 1) (r + 1 + k) (hitP (P1 r) (Q1 r) r) (P1 r)) (hit (r + 1) (r + 1 + k) (hitQ (P1 r) (Q1 r) r) (Q1 r)) (lu_u s)))|].
    + split; [exact Q2|]. split; [exact V2|]. split; [exact Sl2|]. eapply bd_mono; [|exact Hb2]. intros i _. rewrite !hit_out by lia. lia.
    + intros k s Hk (Q3 & V3 & Sl3 & Hb3). pose proof Hb3 as [Sb Ib]. apply (yields_get n m); [exact Sb|lia|exact Hc|].
      assert (Ox : okr (P1 r (r + 1 + k)%nat) (Q1 r (r + 1 + k)%nat) (mentry (lu_u s) (r + 1 + k) c)).
      { pose proof (Ib (r + 1 + k)%nat c ltac:(lia) Hc) as O. rewrite !hit_out in O by lia. exact O. }
      pose proof (hit1_lim r ltac:(lia) (r + 1 + k)%nat ltac:(lia)) as [L4 L5].
      destruct (hit_ge (P1 r) (Q1 r) r (r + 1 + k)%nat (PQ1_pos r)) as [G1 G2].
      eapply yields_bind; [apply (okr_neg _ _ _ Ox); lia|]. intros nx Hnx.
      eapply yields_bind; [apply (replace_hit n m (P1 r) (Q1 r) (r + 1) (n - (r + 1)) r (lu_u s) k nx); [exact L|lia|lia|exact Hk|apply PQ1_pos|apply hit1_lim; lia|exact Hnx|exact Hb3]|].
      intros u Hu. eapply yields_bind; [apply outc_val; apply (shp_set False n n); [exact Sl3|lia|exact L]|]. intros l Hl'.
      apply yields_Ok. cbn. auto.
    + intros g3 (Q3 & V3 & Sl3 & Hb3). apply yields_Ok. unfold lu_inv. cbn [fst snd]. split; [lia|]. split; [lia|]. split; [exact Q3|]. split; [exact V3|]. split; [exact Sl3|].
      eapply bd_mono; [|exact Hb3]. intros j Hj. apply hit1_pr. exact Hj.
Qed.
Theorem lu_bd a : entries_in a -> yields (mat_lu TR a) (fun plu => shp n n (fst (fst plu)) /\ shp n n (snd (fst plu)) /\ bd n m rowb rowb (snd plu)).
Proof.
  intros Ha. unfold mat_lu. pose proof Ha as [(_ & Rn & Cm) _]. rewrite Rn, Cm.
  eapply yields_bind; [apply (yields_seq _ lu_inv)|].
  - split; [cbn; lia|]. split; [cbn; lia|]. cbn [fst snd lu_p lu_l lu_u]. split; [apply seq_length|]. split; [apply Forall_forall; intros k Hk; apply in_seq in Hk; lia|].
    split; [apply identity_shp|apply entries_bd; exact Ha].
  - intros k s Hk Hs. apply lu_step_bd; [exact Hk|exact Hs].
  - intros [r s] (H1 & _ & Hq & Hv & Hl & Hb). cbn [fst snd] in *.
    eapply (yields_bind _ _ (shp n n)); [|intros p Hp; apply yields_Ok; cbn [fst snd]; split; [exact Hp|]; split; [exact Hl|]; eapply bd_mono; [|exact Hb]; intros i _; apply pr_rowb; exact H1].
    unfold mat_permutation_from_vec. rewrite Hq.
    rewrite (from_fnM_Ok n n _ (fun r c => if (nth r (lu_p s) 0 =? c)%nat then f1 else f0)).
    + apply yields_Ok. split; [apply from_fn_shape|split; reflexivity].
    + intros i j Hi Hj. rewrite (vget_Ok _ _ 0%nat) by lia. reflexivity.
Qed.
End Elim.

(** ** to_rref *)
(** the bounds after the rows [r], [r - 1], ..., 1 have been used to clear the columns above their pivots *)
Fixpoint back (r : nat) (B : nat -> Z) : nat -> Z :=
  match r with O => B | S r' => back r' (fun i => if (i <? r)%nat then 2 * (B i * B i) * B r else B i) end.
Definition bstep (r : nat) (B : nat -> Z) (i : nat) : Z := if (i <? r)%nat then 2 * (B i * B i) * B r else B i.
Lemma bstep_ge r B : (forall i, 1 <= B i) -> forall i, B i <= bstep r B i.
Proof. intros H i. unfold bstep. pose proof (H i). pose proof (H r). destruct (i <? r)%nat; [|lia]. assert (B i <= B i * B i) by nia. nia. Qed.
Lemma back_ge r : forall B, (forall i, 1 <= B i) -> forall i, B i <= back r B i.
Proof.
  induction r as [|r IH]; intros B H i; [cbn; lia|]. cbn [back]. change (B i <= back r (bstep (S r) B) i).
  pose proof (bstep_ge (S r) B H) as G. pose proof (G i). pose proof (IH (bstep (S r) B) (fun j => Z.le_trans _ _ _ (H j) (G j)) i). lia.
Qed.
Lemma back_out r : forall B i, (r <= i)%nat -> back r B i = B i.
Proof. induction r as [|r IH]; intros B i Hi; [reflexivity|]. cbn [back]. rewrite IH by lia. destruct (Nat.ltb_spec i (S r)); [lia|reflexivity]. Qed.
(** the first row has the largest bound *)
Lemma back_first r : forall B, (forall i, 1 <= B i) -> forall i, (i <= r)%nat -> back r B i <= back r B 0.
Proof.
  induction r as [|r IH]; intros B H i Hi; [replace i with 0%nat by lia; lia|]. cbn [back]. change (back r (bstep (S r) B) i <= back r (bstep (S r) B) 0).
  pose proof (bstep_ge (S r) B H) as G. assert (H' : forall j, 1 <= bstep (S r) B j) by (intros j; pose proof (H j); pose proof (G j); lia).
  destruct (Nat.le_gt_cases i r) as [L|L]; [apply IH; assumption|]. replace i with (S r) by lia. rewrite back_out by lia.
  pose proof (back_ge r _ H' 0). assert (bstep (S r) B (S r) <= bstep (S r) B 0); [|lia].
  unfold bstep. rewrite Nat.ltb_irrefl. destruct (Nat.ltb_spec 0 (S r)); [|lia]. pose proof (H 0%nat). pose proof (H (S r)). assert (1 <= B 0%nat * B 0%nat) by nia. nia.
Qed.
Lemma to_rref_fold n m k : forall B s, (k < n)%nat -> (forall i, 1 <= B i) -> (forall i, (i < n)%nat -> back k B i <= i64_max) -> fbd n m B B s ->
  yields (foldM (fun s r => o <- first_nonzero TR (fb s) r ;; match o with Some c => form_replace_above s r c | None => Ok s end) (rev (seq 1 k)) s) (fbd n m (back k B) (back k B)).
Proof.
  induction k as [|k IH]; intros B s Hk H Lim Hs; [cbn [seq rev foldM]; apply yields_Ok; exact Hs|].
  rewrite seq_S, rev_app_distr. cbn [rev app foldM Nat.add back].
  pose proof (bstep_ge (S k) B H) as G. assert (H' : forall j, 1 <= bstep (S k) B j) by (intros j; pose proof (H j); pose proof (G j); lia).
  assert (Lim' : forall i, (i < n)%nat -> bstep (S k) B i <= i64_max) by (intros i Hi; pose proof (back_ge k _ H' i); pose proof (Lim i Hi) as L; cbn [back] in L; change (back k (bstep (S k) B) i <= i64_max) in L; lia).
  pose proof Hs as [Hp Hb]. rewrite bind_assoc. eapply yields_bind; [apply outc_val; apply (first_nonzero_shp TR False n m); [apply Hb|lia]|].
  intros o Ho. eapply (yields_bind _ _ (fbd n m (bstep (S k) B) (bstep (S k) B))).
  - destruct o as [c|]; [|apply yields_Ok; split; (eapply bd_mono; [|eassumption]); intros i _; split; apply G].
    assert (E : forall t, (t < S k)%nat -> hitP B B (S k) t = bstep (S k) B t /\ hitQ B B (S k) t <= bstep (S k) B t).
    { intros t Ht. unfold hitP, hitQ, bstep. destruct (Nat.ltb_spec t (S k)); [|lia]. pose proof (H t). pose proof (H (S k)). split; [ring|]. assert (1 <= B t * B t) by nia. nia. }
    unfold form_replace_above. eapply yields_mono; [apply (form_replace_bd n m B B 0 (S k) (S k) c s); [exact Hk|exact Ho|lia|lia|intros i; split; apply H| |exact Hs]|].
    + intros t Ht. destruct (E t ltac:(lia)) as [E1 E2]. pose proof (Lim' t ltac:(lia)). lia.
    + intros s' [Hp' Hb']. split; (eapply bd_mono; [|eassumption]); intros i Hi; unfold hit; cbn [Nat.add]; destruct (Nat.leb_spec 0 i); try lia;
        (destruct (Nat.ltb_spec i (S k)) as [Hlt|Hge]; cbn [andb]; [destruct (E i Hlt); lia|split; apply G]).
  - intros s' Hs'. apply IH; [lia|exact H'|exact Lim|exact Hs'].
Qed.
Theorem to_rref_bd n m B s : (forall i, 1 <= B i) -> back (n - 1) B 0 <= i64_max -> fbd n m B B s -> yields (form_to_rref TR s) (fbd n m (back (n - 1) B) (back (n - 1) B)).
Proof.
  intros H Lim Hs. unfold form_to_rref. pose proof Hs as [_ [(_ & Rn & _) _]]. rewrite Rn. destruct n as [|n']; [cbn [Nat.sub seq rev foldM back]; apply yields_Ok; exact Hs|].
  apply to_rref_fold; [lia|exact H| |exact Hs]. intros i Hi. pose proof (back_first (S n' - 1) B H i ltac:(lia)). lia.
Qed.
(** ** the kernel *)
Theorem kernel_bd n m B s : (forall i, (i < n)%nat -> B i <= i64_max) -> fbd n m B B s -> yields (compute_kernel TR s) (Forall (shp m 1)).
Proof.
  intros Lim [_ [S H]]. pose proof S as (_ & Rn & Cm). unfold compute_kernel, bound_variables. rewrite Rn, Cm.
  eapply (yields_bind _ _ (fun _ => True)).
  { eapply yields_bind; [|intros os _; apply yields_Ok; exact I]. apply outc_val. eapply outc_mono; [apply outc_mapM; intros r Ir; apply in_seq in Ir; apply (first_nonzero_shp TR False n m); [exact S|lia]|auto|].
    intros l Hl. exact I. }
  intros bound _. eapply yields_mono.
  - apply (yields_mapM _ (shp m 1)). intros c Ic. apply filter_In in Ic as [Ic _]. apply in_seq in Ic.
    unfold kernel_vector. rewrite Rn, Cm. apply (yields_seq _ (fun _ v => shp m 1 v)).
    + split; [|split; reflexivity]. unfold mshape, mat_e. cbn [ments mrows mcols]. rewrite map_length, seq_length. lia.
    + intros k v Hk Hv. eapply yields_bind; [apply outc_val; apply (first_nonzero_shp TR False n m); [exact S|lia]|].
      intros [c2|] Hc2; [|apply yields_Ok; exact Hv]. destruct (c2 <? c)%nat; [|apply yields_Ok; exact Hv].
      apply (yields_get n m); [exact S|lia|lia|]. pose proof (H (0 + k)%nat c ltac:(lia) ltac:(lia)) as O. pose proof (Lim (0 + k)%nat ltac:(lia)).
      eapply yields_bind; [apply (okr_neg _ _ _ O); assumption|]. intros y _. apply outc_val. apply (shp_set False m 1); [exact Hv|exact Hc2|lia].
  - intros l Hl. apply Hl.
Qed.
