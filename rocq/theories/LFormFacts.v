(** * LinearForm: the cached environments *)
From Coq Require Import Bool List Arith ZArith Lia Ring.
From Verif Require Import Scalar ScalarFacts Tensor TensorFacts Spec MpsModel MpsFacts EnvFacts ExpectedFacts MpoSpec FormModel FormSpec.
Import ListNotations.
Local Open Scope K_scope.

Section Facts.
Context {SC : Scalar}.
Add Ring Kring : k_ring.

Lemma nth_repeat_lt {A} (x d : A) n i : (i < n)%nat -> nth i (repeat x n) d = x.
Proof. revert i. induction n as [|n IH]; intros [|i] H; cbn; try lia; [reflexivity|]. apply IH. lia. Qed.

Definition nones (n : nat) : list (option tensor) := repeat None n.

Lemma nones_map n s : nones n = map (fun _ => None) (seq s n).
Proof. revert s. induction n as [|n IH]; intros s; [reflexivity|]. cbn [seq map]. rewrite <- (IH (S s)). reflexivity. Qed.

Lemma nones_app n m : nones (n + m) = nones n ++ nones m.
Proof. apply repeat_app. Qed.

Lemma ops_ok_nones p q : pdims p = pdims q -> ops_ok p q (nones (length p)).
Proof.
  revert q. induction p as [|A p IH]; intros [|B q] H; cbn in *; try discriminate; [exact I|].
  injection H as H1 H2. auto.
Qed.

(** The environment of a segment, [ones] if nothing was visited. *)
Definition seg (L : tensor) : tensor := if is_empty L then ones1111 else L.

Definition lenv (b p : mps) (M : tensor) : Prop :=
  pdims b = pdims p /\ (is_empty M = true <-> p = []) /\
  exists ra rb, linked 1 b ra /\ linked 1 p rb /\ env_ok 1 1 b p (nones (length p)) ra rb (seg M).

Definition renv (b q : mps) (M : tensor) : Prop :=
  pdims b = pdims q /\ (is_empty M = true <-> q = []) /\
  exists la lb, (0 < la)%nat /\ (0 < lb)%nat /\ linked la b 1 /\ linked lb q 1 /\ env_ok la lb b q (nones (length q)) 1 1 (seg M).

Lemma env_ones : env_ok 1 1 [] [] [] 1 1 ones1111.
Proof.
  split; [apply wf_mk|]. split; [reflexivity|]. repeat (split; [lia|]).
  intros x y z w Hx Hy Hz Hw. assert (x = 0 /\ y = 0 /\ z = 0 /\ w = 0)%nat as (-> & -> & -> & ->) by lia.
  unfold TM. cbn [pdims map sumcfg prodop chain]. unfold delta. cbn [Nat.eqb]. rewrite kconj_1. cbn. ring.
Qed.

Lemma seg_empty M : is_empty M = true -> seg M = ones1111.
Proof. intros H. unfold seg. rewrite H. reflexivity. Qed.
Lemma seg_nonempty M : is_empty M = false -> seg M = M.
Proof. intros H. unfold seg. rewrite H. reflexivity. Qed.

Lemma lenv_nil M : is_empty M = true -> lenv [] [] M.
Proof.
  intros H. split; [reflexivity|]. split; [tauto|]. exists 1%nat, 1%nat. split; [reflexivity|]. split; [reflexivity|].
  rewrite seg_empty by exact H. apply env_ones.
Qed.
Lemma renv_nil M : is_empty M = true -> renv [] [] M.
Proof.
  intros H. split; [reflexivity|]. split; [tauto|]. exists 1%nat, 1%nat. split; [lia|]. split; [lia|]. split; [reflexivity|]. split; [reflexivity|].
  rewrite seg_empty by exact H. apply env_ones.
Qed.

Lemma app_not_nil {A} (p : list A) x : p ++ [x] <> [].
Proof. intros H. apply app_eq_nil in H. destruct H; discriminate. Qed.

Lemma prop_empty M s A B o : is_empty M = true -> prop_matrix M s A B o = prop_matrix empty s A B o.
Proof. intros H. unfold prop_matrix. rewrite H. reflexivity. Qed.

Lemma lenv_step b p M A B ra rb : lenv b p M -> linked 1 (b ++ [A]) ra -> linked 1 (p ++ [B]) rb -> dim A 1 = dim B 1 ->
  lenv (b ++ [A]) (p ++ [B]) (prop_matrix M 1 A B None).
Proof.
  intros (Hd & Hemp & ma & mb & Hb & Hp & HE) HLA HLB HAB.
  assert (Hpd : pdims (b ++ [A]) = pdims (p ++ [B])) by (rewrite !pdims_app, Hd; cbn; congruence).
  assert (HE' : env_ok 1 1 (b ++ [A]) (p ++ [B]) (nones (length (p ++ [B]))) ra rb (prop_matrix M 1 A B None)).
  { apply linked_app in HLA. destruct HLA as (x & Hb' & HA). apply linked_app in HLB. destruct HLB as (y & Hp' & HB).
    cbn in HA, HB. destruct HA as (da & ca & HA1 & HA2 & HA3 & HA4 & HA5). destruct HB as (db & cb & HB1 & HB2 & HB3 & HB4 & HB5).
    subst ca cb. assert (Hdd : da = db) by (unfold dim in HAB; rewrite HA1, HB1 in HAB; exact HAB).
    destruct p as [|P0 p0].
    - destruct b; [|discriminate Hd]. cbn in Hb', Hp'. subst x y. rewrite prop_empty by (apply Hemp; reflexivity).
      cbn [app length nones repeat]. eapply env_init; eauto; try lia. 
    - assert (Hne : is_empty M = false).
      { destruct (is_empty M) eqn:E; [|reflexivity]. assert (P0 :: p0 = []) by (apply Hemp; reflexivity). discriminate. }
      rewrite seg_nonempty in HE by exact Hne.
      assert (x = ma /\ y = mb) as (-> & ->).
      { destruct HE as (_ & HMd & _). 
        assert (U : forall l q r r', linked l q r -> linked l q r' -> r = r').
        { clear. intros l q. revert l. induction q as [|Q q IH]; cbn; intros l r r' H1 H2; [congruence|].
          destruct H1 as (d & c & E1 & _ & _ & _ & H1). destruct H2 as (d' & c' & E2 & _ & _ & _ & H2).
          rewrite E1 in E2. injection E2 as <- <-. eapply IH; eauto. }
        split; eapply U; eauto. }
      rewrite app_length, nones_app. cbn [length nones repeat].
      eapply env_step_right; eauto; try lia.
      apply ops_ok_nones in Hd. replace (length b) with (length (P0 :: p0)) in Hd; [exact Hd|].
      apply (f_equal (@length nat)) in Hpd. rewrite !length_pdims, !app_length in Hpd. cbn [length] in *. lia. }
  split; [exact Hpd|]. destruct (env_ok_nonempty _ _ _ _ _ _ _ _ HE') as (Hne & _).
  split; [split; [congruence|intros H; apply app_not_nil in H; tauto]|].
  exists ra, rb. split; [exact HLA|]. split; [exact HLB|]. rewrite seg_nonempty by exact Hne. exact HE'.
Qed.

Lemma linked_right_unique l q r r' : linked l q r -> linked l q r' -> r = r'.
Proof.
  revert l. induction q as [|Q q IH]; cbn; intros l H1 H2; [congruence|].
  destruct H1 as (d & c & E1 & _ & _ & _ & H1). destruct H2 as (d' & c' & E2 & _ & _ & _ & H2).
  rewrite E1 in E2. injection E2 as <- <-. eapply IH; eauto.
Qed.

Lemma app_inj_len {A} (a b c d : list A) : length a = length c -> a ++ b = c ++ d -> a = c /\ b = d.
Proof.
  revert c. induction a as [|x a IH]; intros [|y c] Hl H; cbn in *; try discriminate; [auto|].
  injection H as -> H. destruct (IH c ltac:(lia) H) as (-> & ->). auto.
Qed.

Lemma linked_left_unique l l' p r : p <> [] -> linked l p r -> linked l' p r -> l = l'.
Proof.
  destruct p as [|A p]; [congruence|]. intros _ (d & c & H & _) (d' & c' & H' & _). rewrite H in H'. congruence.
Qed.

Lemma renv_step b q M A B la lb : renv b q M -> (0 < la)%nat -> (0 < lb)%nat ->
  linked la (A :: b) 1 -> linked lb (B :: q) 1 -> dim A 1 = dim B 1 ->
  renv (A :: b) (B :: q) (prop_matrix M (-1) A B None).
Proof.
  intros (Hd & Hemp & ma & mb & Hma & Hmb & Hb & Hq & HE) Hla Hlb HLA HLB HAB.
  assert (Hpd : pdims (A :: b) = pdims (B :: q)) by (cbn; f_equal; [exact HAB|exact Hd]).
  assert (HE' : env_ok la lb (A :: b) (B :: q) (nones (length (B :: q))) 1 1 (prop_matrix M (-1) A B None)).
  { pose proof HLA as HA. pose proof HLB as HB. cbn in HA, HB.
    destruct HA as (da & ca & HA1 & HA2 & HA3 & HA4 & HA5). destruct HB as (db & cb & HB1 & HB2 & HB3 & HB4 & HB5).
    assert (Hdd : da = db) by (unfold dim in HAB; rewrite HA1, HB1 in HAB; exact HAB).
    destruct q as [|Q0 q0].
    - destruct b; [|discriminate Hd]. cbn in HA5, HB5. subst ca cb. rewrite prop_empty by (apply Hemp; reflexivity).
      cbn [length nones repeat]. eapply env_init; eauto; try lia.
    - destruct b as [|b0 b1]; [discriminate Hd|].
      assert (Hne : is_empty M = false).
      { destruct (is_empty M) eqn:E; [|reflexivity]. assert (Q0 :: q0 = []) by (apply Hemp; reflexivity). discriminate. }
      rewrite seg_nonempty in HE by exact Hne.
      assert (ca = ma) as -> by (eapply linked_left_unique; [| |exact Hb]; [discriminate|exact HA5]).
      assert (cb = mb) as -> by (eapply linked_left_unique; [| |exact Hq]; [discriminate|exact HB5]).
      cbn [length]. change (nones (S (S (length q0)))) with (None :: nones (S (length q0))).
      eapply env_step_left; eauto; try lia.
      apply ops_ok_nones in Hd. replace (length (b0 :: b1)) with (S (length q0)) in Hd; [exact Hd|].
      apply (f_equal (@length nat)) in Hpd. rewrite !length_pdims in Hpd. cbn [length] in *. lia. }
  split; [exact Hpd|]. destruct (env_ok_nonempty _ _ _ _ _ _ _ _ HE') as (Hne & _).
  split; [split; [congruence|discriminate]|].
  exists la, lb. repeat (split; [assumption|]). rewrite seg_nonempty by exact Hne. exact HE'.
Qed.

(** ** The invariant of all histories *)
Section Inv.
Variables (ws : list K) (bras : list mps) (ds : list nat).
Hypothesis Hg : good_bras ws bras ds.

Definition bra (i : nat) : mps := nth i bras [].

Lemma bra_ok i : (i < length bras)%nat -> linked 1 (bra i) 1 /\ bra i <> [] /\ pdims (bra i) = ds.
Proof. intros Hi. destruct Hg as (_ & _ & H). destruct (H (bra i)) as ((Hn & HL) & Hd); [apply nth_In; exact Hi|]. auto. Qed.

Lemma bra_len i : (i < length bras)%nat -> length (bra i) = length ds.
Proof. intros Hi. destruct (bra_ok i Hi) as (_ & _ & H). rewrite <- H, length_pdims. reflexivity. Qed.

Lemma bras_pos : (0 < length bras)%nat.
Proof. destruct Hg as (H & _). destruct bras; [congruence|cbn; lia]. Qed.

Definition linv0 (f : lform) : Prop :=
  lf_weight f = ws /\ lf_bra f = bras /\ length (lf_matrix f) = length bras /\
  forall i, (i < length bras)%nat -> length (nth i (lf_matrix f) []) = S (length ds).

Definition linv_left (f : lform) (p : mps) : Prop :=
  forall i k, (i < length bras)%nat -> (k <= length p)%nat -> lenv (firstn k (bra i)) (firstn k p) (lf_left f i k).
Definition linv_right (f : lform) (n : nat) (q : mps) : Prop :=
  forall i k, (i < length bras)%nat -> (n < k)%nat -> (k <= length ds)%nat ->
    renv (skipn k (bra i)) (skipn (k - S n) q) (lf_left f i k).

Definition linv (f : lform) (p q : mps) : Prop :=
  linv0 f /\ lf_here f = length p /\ (length p + S (length q) = length ds)%nat /\
  linv_left f p /\ linv_right f (length p) q.

Lemma size_ok f : linv0 f -> lf_size f = length ds.
Proof. intros (_ & H & _). unfold lf_size. rewrite H. apply (bra_len 0). apply bras_pos. Qed.

Lemma firstn_S_nth {A} k (l : list A) d : (k < length l)%nat -> firstn (S k) l = firstn k l ++ [nth k l d].
Proof.
  revert l. induction k as [|k IH]; intros [|x l] H; cbn in H; try lia; [reflexivity|].
  change (firstn (S (S k)) (x :: l)) with (x :: firstn (S k) l). rewrite IH by lia. reflexivity.
Qed.

Lemma skipn_nth {A} k (l : list A) d : (k < length l)%nat -> skipn k l = nth k l d :: skipn (S k) l.
Proof. revert l. induction k as [|k IH]; intros [|x l] H; cbn in H; try lia; [reflexivity|]. cbn [skipn nth]. apply IH. lia. Qed.

Lemma linked_firstn l p r k : linked l p r -> exists m, linked l (firstn k p) m.
Proof. intros H. rewrite <- (firstn_skipn k p) in H. apply linked_app in H. destruct H as (m & H & _). eauto. Qed.

Lemma linked_skipn l p r k : linked l p r -> exists m, linked m (skipn k p) r /\ ((0 < l)%nat -> (0 < m)%nat).
Proof.
  intros H. rewrite <- (firstn_skipn k p) in H. apply linked_app in H. destruct H as (m & H1 & H). exists m. split; [exact H|].
  intros Hl. eapply linked_pos; eauto.
Qed.

(** The effect of a propagation on the matrices *)
Lemma left_after_right f T i k : linv0 f -> (lf_here f + 1 < length ds)%nat -> (i < length bras)%nat ->
  lf_left (lf_propagate_right f T) i k =
  if Nat.eqb k (lf_here f + 1) then prop_matrix (lf_left f i (lf_here f)) 1 (site (bra i) (lf_here f)) T None else lf_left f i k.
Proof.
  intros H0 Hh Hi. unfold lf_propagate_right. rewrite (size_ok f H0). destruct (Nat.eqb_spec (lf_here f + 1) (length ds)); [lia|].
  destruct H0 as (H1 & H2 & H3 & H4). unfold lf_left at 1. cbn [lf_matrix]. unfold lf_nbras. rewrite H2.
  rewrite nth_map_seq by exact Hi. destruct (Nat.eqb_spec k (lf_here f + 1)) as [->|Hk].
  - rewrite nth_replace_nth_eq by (rewrite H4 by exact Hi; lia). unfold lf_bra_site. rewrite H2. reflexivity.
  - rewrite nth_replace_nth_neq by exact Hk. reflexivity.
Qed.

Lemma left_after_left f T i k : linv0 f -> (0 < lf_here f < length ds)%nat -> (i < length bras)%nat ->
  lf_left (lf_propagate_left f T) i k =
  if Nat.eqb k (lf_here f) then prop_matrix (lf_left f i (lf_here f + 1)) (-1) (site (bra i) (lf_here f)) T None else lf_left f i k.
Proof.
  intros H0 Hh Hi. unfold lf_propagate_left. destruct (Nat.eqb_spec (lf_here f) 0); [lia|].
  destruct H0 as (H1 & H2 & H3 & H4). unfold lf_left at 1. cbn [lf_matrix]. unfold lf_nbras. rewrite H2.
  rewrite nth_map_seq by exact Hi. replace (lf_here f - 1 + 1)%nat with (lf_here f) by lia.
  destruct (Nat.eqb_spec k (lf_here f)) as [->|Hk].
  - rewrite nth_replace_nth_eq by (rewrite H4 by exact Hi; lia). unfold lf_bra_site, lf_right, lf_left. rewrite H2. reflexivity.
  - rewrite nth_replace_nth_neq by exact Hk. reflexivity.
Qed.

Lemma linv0_right f T : linv0 f -> linv0 (lf_propagate_right f T).
Proof.
  intros H. unfold lf_propagate_right. destruct (Nat.eqb (lf_here f + 1) (lf_size f)); [exact H|].
  destruct H as (H1 & H2 & H3 & H4). repeat split; auto; cbn [lf_matrix]; unfold lf_nbras; rewrite H2.
  - rewrite map_length, seq_length. reflexivity.
  - intros i Hi. rewrite nth_map_seq by exact Hi. rewrite length_replace_nth. apply H4. exact Hi.
Qed.

Lemma linv0_left f T : linv0 f -> linv0 (lf_propagate_left f T).
Proof.
  intros H. unfold lf_propagate_left. destruct (Nat.eqb (lf_here f) 0); [exact H|].
  destruct H as (H1 & H2 & H3 & H4). repeat split; auto; cbn [lf_matrix]; unfold lf_nbras; rewrite H2.
  - rewrite map_length, seq_length. reflexivity.
  - intros i Hi. rewrite nth_map_seq by exact Hi. rewrite length_replace_nth. apply H4. exact Hi.
Qed.

Lemma here_right f T : linv0 f -> (lf_here f + 1 < length ds)%nat -> lf_here (lf_propagate_right f T) = (lf_here f + 1)%nat.
Proof. intros H0 H. unfold lf_propagate_right. rewrite (size_ok f H0). destruct (Nat.eqb_spec (lf_here f + 1) (length ds)); [lia|]. reflexivity. Qed.

Lemma here_left f T : (0 < lf_here f)%nat -> lf_here (lf_propagate_left f T) = (lf_here f - 1)%nat.
Proof. intros H. unfold lf_propagate_left. destruct (Nat.eqb_spec (lf_here f) 0); [lia|]. reflexivity. Qed.

(** Left environments after a move to the right (whatever the right ones are). *)
Lemma linv_left_right f p T c : linv0 f -> lf_here f = length p -> (length p + 1 < length ds)%nat -> linv_left f p ->
  linked 1 (p ++ [T]) c -> dim T 1 = nth (length p) ds 0%nat -> linv_left (lf_propagate_right f T) (p ++ [T]).
Proof.
  intros H0 Hh Hlt HL HLk Hd i k Hi Hk. rewrite app_length in Hk. cbn [length] in Hk.
  rewrite left_after_right by (try assumption; lia). rewrite Hh.
  destruct (Nat.eqb_spec k (length p + 1)) as [->|Hne].
  - destruct (bra_ok i Hi) as (Hb & _ & Hbd).
    replace (length p + 1)%nat with (S (length p)) by lia.
    rewrite (firstn_S_nth (length p) (bra i) empty) by (rewrite bra_len by exact Hi; lia).
    rewrite (firstn_all2 (p ++ [T])) by (rewrite app_length; cbn; lia).
    destruct (linked_firstn 1 (bra i) 1 (S (length p)) Hb) as (ra & Hra).
    rewrite (firstn_S_nth (length p) (bra i) empty) in Hra by (rewrite bra_len by exact Hi; lia).
    change (nth (length p) (bra i) empty) with (site (bra i) (length p)) in *.
    apply (lenv_step _ p _ _ _ ra c); auto.
    + rewrite <- (firstn_all p) at 2. apply HL; [exact Hi|lia].
    + rewrite Hd, <- Hbd. unfold pdims, site. rewrite (nth_indep _ 0%nat (dim empty 1)) by (rewrite map_length, bra_len by exact Hi; lia).
      rewrite (map_nth (fun A => dim A 1)). reflexivity.
  - rewrite firstn_app. replace (k - length p)%nat with 0%nat by lia. cbn [firstn]. rewrite app_nil_r. apply HL; [exact Hi|lia].
Qed.

(** Right environments after a move to the left. *)
Lemma linv_right_left f n q T c : linv0 f -> lf_here f = S n -> (S (S n) + length q = length ds)%nat -> linv_right f (S n) q ->
  (0 < c)%nat -> linked c (T :: q) 1 -> dim T 1 = nth (S n) ds 0%nat -> linv_right (lf_propagate_left f T) n (T :: q).
Proof.
  intros H0 Hh Hlt HR Hc HLk Hd i k Hi Hk Hk2. rewrite left_after_left by (try assumption; lia). rewrite Hh.
  destruct (Nat.eqb_spec k (S n)) as [->|Hne].
  - destruct (bra_ok i Hi) as (Hb & _ & Hbd). rewrite Nat.sub_diag. change (skipn 0 (T :: q)) with (T :: q).
    rewrite (skipn_nth (S n) (bra i) empty) by (rewrite bra_len by exact Hi; lia).
    destruct (linked_skipn 1 (bra i) 1 (S n) Hb) as (la & Hla & Hpos).
    rewrite (skipn_nth (S n) (bra i) empty) in Hla by (rewrite bra_len by exact Hi; lia).
    change (nth (S n) (bra i) empty) with (site (bra i) (S n)) in *.
    apply (renv_step _ q _ _ _ la c); auto.
    + pose proof (HR i (S n + 1)%nat Hi ltac:(lia) ltac:(lia)) as H. replace (S n + 1 - S (S n))%nat with 0%nat in H by lia.
      replace (S (S n)) with (S n + 1)%nat by lia. exact H.
    + rewrite Hd, <- Hbd. unfold pdims, site. rewrite (nth_indep _ 0%nat (dim empty 1)) by (rewrite map_length, bra_len by exact Hi; lia).
      rewrite (map_nth (fun A => dim A 1)). reflexivity.
  - replace (k - S n)%nat with (S (k - S (S n))) by lia. cbn [skipn]. apply HR; [exact Hi|lia|lia].
Qed.

(** The constructor. *)
Lemma linv_new ket s f : open_mps ket -> pdims ket = ds -> lform_new ws bras ket (Z.of_nat s) = Ok f ->
  linv f (firstn s ket) (skipn (S s) ket).
Proof.
  intros (Hkne & Hkl) Hkd. unfold lform_new. change (nth 0 bras []) with (bra 0). rewrite (bra_len 0) by apply bras_pos.
  destruct (Nat.eqb_spec (length bras) 0) as [|_]; [discriminate|].
  destruct (Z.ltb_spec (Z.of_nat s) 0); [lia|]. destruct (Z.leb_spec (Z.of_nat (length ds)) (Z.of_nat s)); [discriminate|]. cbn [orb].
  rewrite Nat2Z.id. assert (Hs : (s < length ds)%nat) by lia.
  assert (Hkn : length ket = length ds) by (rewrite <- Hkd, length_pdims; reflexivity).
  set (f0 := mkLF ws bras 0 (repeat (repeat empty (length ds + 1)) (length bras))).
  assert (Hsite : forall k, (k < length ds)%nat -> dim (site ket k) 1 = nth k ds 0%nat).
  { intros k Hk. rewrite <- Hkd. unfold pdims, site. rewrite (nth_indep _ 0%nat (dim empty 1)) by (rewrite map_length; lia).
    rewrite (map_nth (fun A => dim A 1)). reflexivity. }
  assert (Hf0 : linv0 f0 /\ forall i k, (i < length bras)%nat -> lf_left f0 i k = empty).
  { split.
    - split; [reflexivity|]. split; [reflexivity|]. split; [apply repeat_length|].
      intros i Hi. cbn [f0 lf_matrix]. rewrite nth_repeat_lt by exact Hi. rewrite repeat_length. lia.
    - intros i k Hi. unfold lf_left. cbn [f0 lf_matrix]. rewrite nth_repeat_lt by exact Hi. apply nth_repeat. }
  destruct Hf0 as (Hf0 & Hemp).
  assert (H1 : forall n, (n <= s)%nat -> let f1 := fold_left (fun f k => lf_propagate_right f (site ket k)) (seq 0 n) f0 in
    linv0 f1 /\ lf_here f1 = n /\ linv_left f1 (firstn n ket) /\
    forall i k, (i < length bras)%nat -> (n < k)%nat -> lf_left f1 i k = empty).
  { induction n as [|n IH]; intros Hn f1.
    - split; [exact Hf0|]. split; [reflexivity|]. split.
      + intros i k Hi Hk. cbn in Hk. assert (k = 0%nat) as -> by lia. cbn [firstn]. apply lenv_nil.
        unfold f1. cbn [seq fold_left]. rewrite Hemp by exact Hi. reflexivity.
      + intros i k Hi _. apply Hemp. exact Hi.
    - destruct (IH ltac:(lia)) as (I1 & I2 & I3 & I4). clear IH. unfold f1. rewrite seq_S, fold_left_app. cbn [fold_left Nat.add].
      set (f' := fold_left _ (seq 0 n) f0) in *. clear f1.
      assert (Hln : length (firstn n ket) = n) by (rewrite firstn_length; lia).
      split; [apply linv0_right; exact I1|]. split; [rewrite here_right; [lia|exact I1|lia]|].
      split.
      + rewrite (firstn_S_nth n ket empty) by lia.
        destruct (linked_firstn 1 ket 1 (S n) Hkl) as (c & Hc). rewrite (firstn_S_nth n ket empty) in Hc by lia.
        apply (linv_left_right _ _ _ c); auto; rewrite Hln; try lia. apply Hsite. lia.
      + intros i k Hi Hk. rewrite left_after_right by (try assumption; lia). rewrite I2.
        destruct (Nat.eqb_spec k (n + 1)); [lia|]. apply I4; [exact Hi|lia]. }
  destruct (H1 s ltac:(lia)) as (I1 & I2 & I3 & I4). cbv zeta in *. clear H1.
  set (f1 := fold_left _ (seq 0 s) f0) in *.
  assert (H2 : forall n, (n <= length ds - 1 - s)%nat ->
    let f2 := fold_left (fun f k => lf_propagate_left f (site ket k)) (rev (seq (length ds - n) n)) (lf_goto f1 (length ds - 1)) in
    linv0 f2 /\ lf_here f2 = (length ds - 1 - n)%nat /\ linv_left f2 (firstn s ket) /\
    linv_right f2 (length ds - 1 - n) (skipn (length ds - n) ket)).
  { induction n as [|n IH]; intros Hn f2.
    - split; [exact I1|]. split; [cbn; lia|]. split; [exact I3|].
      intros i k Hi Hk Hk2. assert (k = length ds) as -> by lia. unfold f2. cbn [seq rev fold_left].
      rewrite (skipn_all2 (bra i)) by (rewrite bra_len by exact Hi; lia).
      rewrite !skipn_all2 by (try rewrite skipn_length; lia). apply renv_nil.
      change (lf_left (lf_goto f1 (length ds - 1)) i (length ds)) with (lf_left f1 i (length ds)). rewrite I4; [reflexivity|exact Hi|lia].
    - destruct (IH ltac:(lia)) as (J1 & J2 & J3 & J4). clear IH. unfold f2.
      replace (seq (length ds - S n) (S n)) with (length ds - S n :: seq (length ds - n) n)%nat
        by (cbn [seq]; do 2 f_equal; lia).
      cbn [rev]. rewrite fold_left_app. cbn [fold_left].
      set (f' := fold_left _ (rev (seq (length ds - n) n)) _) in *. clear f2.
      split; [apply linv0_left; exact J1|]. split; [rewrite here_left; lia|].
      split.
      + intros i k Hi Hk. rewrite left_after_left by (try assumption; lia). rewrite J2.
        rewrite firstn_length in Hk. destruct (Nat.eqb_spec k (length ds - 1 - n)); [lia|]. apply J3; [exact Hi|rewrite firstn_length; lia].
      + rewrite (skipn_nth (length ds - S n) ket empty) by lia.
        destruct (linked_skipn 1 ket 1 (length ds - S n) Hkl) as (c & Hc & Hpos).
        rewrite (skipn_nth (length ds - S n) ket empty) in Hc by lia.
        replace (S (length ds - S n)) with (length ds - n)%nat in * by lia.
        apply (linv_right_left f' (length ds - 1 - S n)%nat _ _ c); auto; try lia.
        * rewrite skipn_length. lia.
        * replace (S (length ds - 1 - S n)) with (length ds - 1 - n)%nat by lia. exact J4.
        * change (nth (length ds - S n) ket empty) with (site ket (length ds - S n)).
          replace (S (length ds - 1 - S n)) with (length ds - S n)%nat by lia. apply Hsite. lia. }
  destruct (H2 (length ds - 1 - s)%nat ltac:(lia)) as (J1 & J2 & J3 & J4). cbv zeta in *.
  replace (length ds - (length ds - 1 - s))%nat with (s + 1)%nat in * by lia.
  replace (length ds - 1 - (length ds - 1 - s))%nat with s in * by lia.
  intros E. apply (f_equal (fun r => match r with Ok x => x | Abort => f end)) in E. cbn beta iota in E. rewrite <- E.
  assert (Hln : length (firstn s ket) = s) by (rewrite firstn_length; lia).
  split; [exact J1|]. split; [rewrite J2, Hln; reflexivity|]. split; [rewrite Hln, skipn_length; lia|].
  split; [exact J3|]. rewrite Hln. replace (S s) with (s + 1)%nat by lia. exact J4.
Qed.

Lemma history_linv f p q : lf_history ws bras ds f p q -> linv f p q /\ (exists a, linked 1 p a) /\ (exists b, (0 < b)%nat /\ linked b q 1).
Proof.
  induction 1 as [ket s f Hk Hd E|f p B q T c _ IH HL HT|f p T _ IH|f p B q T c _ IH Hc HL HT|f q T _ IH].
  - split; [apply linv_new; assumption|]. destruct Hk as (_ & Hk). split; [apply (linked_firstn 1 ket 1 s Hk)|].
    destruct (linked_skipn 1 ket 1 (S s) Hk) as (m & Hm & Hp). exists m. split; [apply Hp; lia|exact Hm].
  - destruct IH as ((H0 & Hh & Hlen & HLft & HR) & Hp & b & Hb & Hq). cbn [length] in Hlen. split.
    + split; [apply linv0_right; exact H0|]. split; [rewrite here_right, app_length; [cbn [length]; lia|exact H0|lia]|].
      split; [rewrite app_length; cbn [length]; lia|].
      split; [apply (linv_left_right f p T c); auto; lia|].
      rewrite app_length. cbn [length]. intros i k Hi Hk Hk2. rewrite left_after_right by (try assumption; lia). rewrite Hh.
      destruct (Nat.eqb_spec k (length p + 1)); [lia|].
      pose proof (HR i k Hi ltac:(lia) Hk2) as H. replace (k - S (length p))%nat with (S (k - S (length p + 1))) in H by lia. exact H.
    + split; [exists c; exact HL|]. destruct Hq as (d & c' & _ & _ & _ & Hc' & Hq). exists c'. auto.
  - destruct IH as ((H0 & Hh & Hlen & HLft & HR) & Hp & b & Hb & Hq). cbn [length] in Hlen.
    assert (E : lf_propagate_right f T = f).
    { unfold lf_propagate_right. rewrite (size_ok f H0), Hh. destruct (Nat.eqb_spec (length p + 1) (length ds)); [reflexivity|lia]. }
    rewrite E. split; [split; [exact H0|auto]|]. split; eauto.
  - destruct IH as ((H0 & Hh & Hlen & HLft & HR) & (a & Hp) & b & Hb & Hq). rewrite app_length in Hh, Hlen, HR. cbn [length] in Hh, Hlen, HR.
    replace (length p + 1)%nat with (S (length p)) in Hh, Hlen, HR, HT by lia. split.
    + split; [apply linv0_left; exact H0|]. split; [rewrite here_left; lia|]. split; [cbn [length]; lia|]. split.
      * intros i k Hi Hk. rewrite left_after_left by (try assumption; lia). rewrite Hh. destruct (Nat.eqb_spec k (S (length p))); [lia|].
        pose proof (HLft i k Hi ltac:(rewrite app_length; cbn [length]; lia)) as H. rewrite firstn_app in H. replace (k - length p)%nat with 0%nat in H by lia.
        cbn [firstn] in H. rewrite app_nil_r in H. exact H.
      * apply (linv_right_left f (length p) q T c); auto; lia.
    + split; [apply linked_app in Hp; destruct Hp as (m & Hp & _); eauto|]. exists c. auto.
  - destruct IH as ((H0 & Hh & Hlen & HLft & HR) & Hp & b & Hb & Hq). cbn [length] in Hh.
    assert (E : lf_propagate_left f T = f).
    { unfold lf_propagate_left. rewrite Hh. reflexivity. }
    rewrite E. split; [split; [exact H0|auto]|]. split; eauto.
Qed.
End Inv.
End Facts.
