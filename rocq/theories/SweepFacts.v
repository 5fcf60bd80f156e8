(** Sweepers visit every site once; bond dimensions after truncation *)
From Coq Require Import Reals Lra Bool List Arith ZArith Lia Ring.
From Verif Require Import Scalar ScalarFacts RScal Tensor TensorFacts Spec MpsModel MpsFacts StateFacts CanonSpec
  CanonModel SweepModel SweepSpec.
Import ListNotations.

(** ** Sweeper *)
Lemma trace_det s l s' : sweep_trace s l s' -> forall l2 s2, sweep_trace s l2 s2 -> l2 = l /\ s2 = s'.
Proof.
  induction 1 as [s s' H|s s1 l s' H Ht IH]; intros l2 s2 H2; inversion H2 as [sa sb Ha|sa sb lc sd Ha Hb]; subst.
  - rewrite H in Ha. injection Ha as <-. auto.
  - rewrite H in Ha. discriminate.
  - rewrite H in Ha. discriminate.
  - rewrite H in Ha. injection Ha as <-. destruct (IH _ _ Hb) as (-> & ->). auto.
Qed.

Lemma trace_up n : forall k N k0, N = (k + n)%nat ->
  sweep_trace (mkSweeper (Z.of_nat k) k0 (Z.of_nat N) 1) (map Z.of_nat (seq k (S n))) (mkSweeper (Z.of_nat N) k0 (Z.of_nat N) 1).
Proof.
  induction n as [|n IH]; intros k N k0 ->.
  - rewrite Nat.add_0_r. cbn [seq map]. apply (trace_stop (mkSweeper (Z.of_nat k) k0 (Z.of_nat k) 1)).
    unfold sweeper_dec. cbn. rewrite Z.eqb_refl. reflexivity.
  - change (seq k (S (S n))) with (k :: seq (S k) (S n)). cbn [map].
    apply (trace_step (mkSweeper (Z.of_nat k) k0 (Z.of_nat (k + S n)) 1) (mkSweeper (Z.of_nat (S k)) k0 (Z.of_nat (k + S n)) 1)).
    + unfold sweeper_dec. cbn [sk skN sdk sk0]. destruct (Z.eqb_spec (Z.of_nat k) (Z.of_nat (k + S n))); [lia|].
      do 2 f_equal. lia.
    + apply IH. lia.
Qed.

Lemma trace_down k : forall k0,
  sweep_trace (mkSweeper (Z.of_nat k) k0 0 (-1)) (rev (map Z.of_nat (seq 0 (S k)))) (mkSweeper 0 k0 0 (-1)).
Proof.
  induction k as [|k IH]; intros k0.
  - cbn. apply (trace_stop (mkSweeper 0 k0 0 (-1))). reflexivity.
  - rewrite seq_S, map_app, rev_app_distr. cbn [map rev app Nat.add].
    apply (trace_step (mkSweeper (Z.of_nat (S k)) k0 0 (-1)) (mkSweeper (Z.of_nat k) k0 0 (-1))).
    + unfold sweeper_dec. cbn [sk skN sdk sk0]. destruct (Z.eqb_spec (Z.of_nat (S k)) 0); [lia|].
      do 2 f_equal. lia.
    + apply IH.
Qed.

Definition sweeper_inv (L : Z) (s : sweeper) : Prop :=
  (0 < L)%Z /\ (0 <= sk s < L)%Z /\
  ((sk0 s = 0 /\ skN s = L - 1 /\ sdk s = 1) \/ (sk0 s = L - 1 /\ skN s = 0 /\ sdk s = -1))%Z.

Lemma reachable_inv L sense s : sweeper_reachable L sense s -> sweeper_inv L s.
Proof.
  induction 1 as [s H|s H IH|s H IH].
  - unfold new_sweeper in H. destruct (Z.ltb_spec 0 L); [|discriminate].
    destruct (Z.ltb_spec 0 sense); injection H as <-; unfold sweeper_inv; cbn; lia.
  - destruct IH as (HL & Hk & Hd). unfold sweeper_dec. destruct (Z.eqb_spec (sk s) (skN s)); unfold sweeper_inv; cbn; lia.
  - destruct IH as (HL & Hk & Hd). unfold sweeper_flip, sweeper_inv; cbn; lia.
Qed.

Lemma inv_trace L s : sweeper_inv L s -> sk s = sk0 s ->
  exists s', sweep_trace s (all_sites L (sdk s)) s' /\ sk s' = skN s /\ sdk s' = sdk s.
Proof.
  intros (HL & Hk & Hd) E. destruct s as [k k0 kN dk]. cbn in *. subst k.
  unfold all_sites, upwards.
  assert (HS : Z.to_nat L = S (Z.to_nat (L - 1))) by lia.
  destruct Hd as [(-> & -> & ->)|(-> & -> & ->)]; cbn [Z.ltb Z.compare].
  - eexists. split.
    { rewrite HS. pose proof (trace_up (Z.to_nat (L - 1)) 0 (Z.to_nat (L - 1)) 0 eq_refl) as H.
      rewrite Z2Nat.id in H by lia. exact H. }
    cbn. auto.
  - eexists. split.
    { rewrite HS. pose proof (trace_down (Z.to_nat (L - 1)) (L - 1)) as H.
      rewrite Z2Nat.id in H by lia. exact H. }
    cbn. auto.
Qed.

(** ** truncate *)
Section Facts.
Context {RS : RScal}.
Add Ring Kring : k_ring.

Lemma nprod_pos ds : Forall (fun d => 0 < d) ds -> 0 < nprod ds.
Proof. induction 1 as [|d ds Hd _ IH]; [cbn; lia|]. change (nprod (d :: ds)) with (d * nprod ds). nia. Qed.

Definition clip (D c : nat) : nat := if D <? c then D else c.
Lemma clip_min D c : clip D c = Nat.min D c.
Proof. unfold clip. destruct (Nat.ltb_spec D c); lia. Qed.

Lemma min_step D p d : 0 < d -> Nat.min D (Nat.min D p * d) = Nat.min D (p * d).
Proof. intros H. destruct (Nat.le_gt_cases D p); [|rewrite (Nat.min_r D p) by lia; reflexivity]. rewrite (Nat.min_l D p) by lia. nia. Qed.

Lemma nth_pdims (P : mps) k : k < length P -> nth k (pdims P) 0 = dim (site P k) 1.
Proof.
  intros H. unfold pdims, site. rewrite nth_indep with (d' := dim empty 1) by (rewrite map_length; exact H).
  apply (map_nth (fun A => dim A 1)).
Qed.

Lemma left_cap_S (ds : list nat) k : k < length ds -> left_capacity ds (S k) = left_capacity ds k * nth k ds 0.
Proof.
  unfold left_capacity. revert k. induction ds as [|d ds IH]; intros k Hk; cbn in Hk; [lia|].
  destruct k as [|k]; [cbn; lia|]. change (firstn (S (S k)) (d :: ds)) with (d :: firstn (S k) ds).
  change (firstn (S k) (d :: ds)) with (d :: firstn k ds). cbn [nprod fold_right nth].
  unfold nprod in *. cbn [fold_right]. rewrite IH by lia. cbn [nth]. lia.
Qed.

Lemma right_cap_S (ds : list nat) k : k < length ds -> right_capacity ds k = right_capacity ds (S k) * nth k ds 0.
Proof.
  unfold right_capacity. revert k. induction ds as [|d ds IH]; intros k Hk; cbn in Hk; [lia|].
  destruct k as [|k]; [cbn; unfold nprod; cbn; lia|].
  change (skipn (S (S k)) (d :: ds)) with (skipn (S k) ds). change (skipn (S k) (d :: ds)) with (skipn k ds).
  cbn [nth]. apply IH. lia.
Qed.

Section Bonds.
Variable P : mps.
Variable D : nat.
Hypothesis HD : 0 < D.
Hypothesis Hd : Forall (fun d => 0 < d) (pdims P).

Let ds := pdims P.

Lemma dim_pos k : k < length P -> 0 < dim (site P k) 1.
Proof.
  intros Hk. rewrite <- nth_pdims by exact Hk. rewrite Forall_forall in Hd. apply Hd. apply nth_In.
  unfold pdims. rewrite map_length. exact Hk.
Qed.

Lemma length_ds : length ds = length P.
Proof. unfold ds, pdims. apply map_length. Qed.

Lemma fwd_spec n : forall s d0, s + n <= length P -> length d0 = length P + 1 -> 0 < s ->
  exists d1, fold_left (fun '(c, d) i => (clip D (c * dim (site P (i - 1)) 1), replace_nth i (clip D (c * dim (site P (i - 1)) 1)) d))
      (seq s n) (Nat.min D (left_capacity ds (s - 1)), d0) = (Nat.min D (left_capacity ds (s + n - 1)), d1) /\ length d1 = length d0 /\
    (forall i, s <= i < s + n -> nth i d1 0 = Nat.min D (left_capacity ds i)) /\
    (forall i, ~ (s <= i < s + n) -> nth i d1 0 = nth i d0 0).
Proof.
  induction n as [|n IH]; intros s d0 Hs Hl H0.
  - exists d0. cbn. rewrite Nat.add_0_r. repeat split; auto. intros; lia.
  - cbn [seq fold_left].
    set (c := clip D (Nat.min D (left_capacity ds (s - 1)) * dim (site P (s - 1)) 1)).
    assert (Hc : c = Nat.min D (left_capacity ds s)).
    { unfold c. rewrite clip_min, min_step by (apply dim_pos; lia).
      replace (left_capacity ds s) with (left_capacity ds (s - 1) * nth (s - 1) ds 0).
      - unfold ds. rewrite nth_pdims by lia. reflexivity.
      - rewrite <- left_cap_S by (rewrite length_ds; lia). f_equal. lia. }
    destruct (IH (S s) (replace_nth s c d0)) as (d1 & E & Hl1 & H1 & H2); [lia|rewrite length_replace_nth; exact Hl|lia|].
    exists d1. split.
    { replace (S s - 1) with s in E by lia. rewrite <- Hc in E. rewrite E. do 3 f_equal. lia. }
    split; [rewrite Hl1; apply length_replace_nth|].
    assert (Hsd : nth s d1 0 = c).
    { rewrite H2 by lia. apply nth_replace_nth_eq. lia. }
    split.
    + intros i Hi. destruct (Nat.eq_dec i s) as [->|Hn]; [rewrite Hsd; exact Hc|apply H1; lia].
    + intros i Hi. rewrite H2 by lia. apply nth_replace_nth_neq. lia.
Qed.

Lemma bwd_spec n : forall d0, n <= length P -> length d0 = length P + 1 ->
  exists d1 c', fold_left (fun '(c, d) i => (clip D (c * dim (site P i) 1),
        if clip D (c * dim (site P i) 1) <? nth i d 0 then replace_nth i (clip D (c * dim (site P i) 1)) d else d))
      (rev (seq 0 n)) (Nat.min D (right_capacity ds n), d0) = (c', d1) /\ length d1 = length d0 /\
    (forall i, i < n -> nth i d1 0 = Nat.min (nth i d0 0) (Nat.min D (right_capacity ds i))) /\
    (forall i, n <= i -> nth i d1 0 = nth i d0 0).
Proof.
  induction n as [|n IH]; intros d0 Hn Hl.
  - exists d0. eexists. cbn. repeat split; auto. intros; lia.
  - rewrite seq_S, rev_app_distr. cbn [rev app fold_left Nat.add].
    set (c := clip D (Nat.min D (right_capacity ds (S n)) * dim (site P n) 1)).
    assert (Hc : c = Nat.min D (right_capacity ds n)).
    { unfold c. rewrite clip_min, min_step by (apply dim_pos; lia).
      rewrite (right_cap_S ds n) by (rewrite length_ds; lia). replace (nth n ds 0) with (dim (site P n) 1) by (symmetry; apply nth_pdims; lia). reflexivity. }
    set (d0' := if c <? nth n d0 0 then replace_nth n c d0 else d0).
    assert (Hl' : length d0' = length d0) by (unfold d0'; destruct (c <? nth n d0 0); [apply length_replace_nth|reflexivity]).
    assert (Hn' : nth n d0' 0 = Nat.min (nth n d0 0) c).
    { unfold d0'. destruct (Nat.ltb_spec c (nth n d0 0)); [rewrite nth_replace_nth_eq by lia|]; lia. }
    assert (Ho' : forall i, i <> n -> nth i d0' 0 = nth i d0 0).
    { intros i Hi. unfold d0'. destruct (c <? nth n d0 0); [apply nth_replace_nth_neq; exact Hi|reflexivity]. }
    destruct (IH d0') as (d1 & c' & E & Hl1 & H1 & H2); [lia|lia|].
    exists d1, c'. split; [rewrite <- Hc in E; exact E|]. split; [lia|]. split.
    + intros i Hi. destruct (Nat.eq_dec i n) as [->|Hi'].
      * rewrite H2 by lia. rewrite Hn', Hc. reflexivity.
      * rewrite H1 by lia. rewrite Ho' by exact Hi'. reflexivity.
    + intros i Hi. rewrite H2 by lia. apply Ho'. lia.
Qed.

Lemma expected_dimensions_spec periodic : 0 < length P ->
  length (expected_dimensions P D periodic) = length P + 1 /\
  forall k, k <= length P -> nth k (expected_dimensions P D periodic) 0 = bond_cap ds D periodic k.
Proof.
  intros HL. unfold expected_dimensions, bond_cap. destruct periodic.
  { rewrite repeat_length. split; [reflexivity|]. intros k Hk. clear -Hk.
    assert (H : forall n, k < n -> nth k (repeat D n) 0 = D).
    { clear Hk. induction k as [|k IH]; intros n Hn; destruct n; cbn; try lia. apply IH. lia. }
    apply H. lia. }
  cbv zeta. fold (clip D).
  set (d0 := replace_nth (length P) 1 (replace_nth 0 1 (repeat 0 (length P + 1)))).
  assert (Hl0 : length d0 = length P + 1) by (unfold d0; rewrite !length_replace_nth, repeat_length; reflexivity).
  destruct (fwd_spec (length P - 1) 1 d0) as (d1 & E1 & Hl1 & Hf1 & Hf2); [lia|exact Hl0|lia|].
  assert (E0 : Nat.min D (left_capacity ds (1 - 1)) = 1) by (cbn; lia).
  rewrite E0 in E1.
  match goal with |- context [fold_left ?f (seq 1 (length P - 1)) (1, d0)] => 
    change (fold_left f (seq 1 (length P - 1)) (1, d0)) with
      (fold_left (fun '(c, d) i => (clip D (c * dim (site P (i - 1)) 1), replace_nth i (clip D (c * dim (site P (i - 1)) 1)) d))
        (seq 1 (length P - 1)) (1, d0)) end.
  rewrite E1. cbn beta iota.
  destruct (bwd_spec (length P) d1) as (d2 & c' & E2 & Hl2 & Hb1 & Hb2); [lia|lia|].
  assert (E3 : Nat.min D (right_capacity ds (length P)) = 1).
  { unfold right_capacity. rewrite skipn_all2 by (rewrite length_ds; lia). cbn. lia. }
  rewrite E3 in E2.
  match goal with |- context [fold_left ?f (rev (seq 0 (length P))) (1, d1)] => 
    change (fold_left f (rev (seq 0 (length P))) (1, d1)) with
      (fold_left (fun '(c, d) i => (clip D (c * dim (site P i) 1),
        if clip D (c * dim (site P i) 1) <? nth i d 0 then replace_nth i (clip D (c * dim (site P i) 1)) d else d))
        (rev (seq 0 (length P))) (1, d1)) end.
  rewrite E2. split; [lia|]. intros k Hk.
  assert (Hpos : forall k, 0 < left_capacity ds k /\ 0 < right_capacity ds k).
  { intros j. split; apply nprod_pos; rewrite Forall_forall in *; intros x Hx; apply Hd;
    fold ds; rewrite <- (firstn_skipn j ds); apply in_or_app; auto. }
  destruct (Nat.eq_dec k (length P)) as [->|Hk'].
  - rewrite Hb2 by lia. rewrite Hf2 by lia. unfold d0. rewrite nth_replace_nth_eq by (rewrite length_replace_nth, repeat_length; lia).
    pose proof (Hpos (length P)). rewrite Nat.min_assoc. rewrite <- (Nat.min_comm (right_capacity _ _)), Nat.min_assoc.
    rewrite (Nat.min_comm (right_capacity _ _)), E3. lia.
  - rewrite Hb1 by lia. destruct k as [|k].
    + rewrite Hf2 by lia. unfold d0. rewrite nth_replace_nth_neq by lia. rewrite nth_replace_nth_eq by (rewrite repeat_length; lia).
      pose proof (Hpos 0). change (left_capacity ds 0) with 1. lia.
    + rewrite Hf1 by lia. lia.
Qed.

End Bonds.

(** New dimension of a bond of dimension [old] when the cap is [d]. *)
Definition nb (increase : bool) (old d : nat) : nat := if increase then d else Nat.min old d.

Lemma resize0 inc t d a i c : dims t = [a; i; c] -> wf t ->
  exists t', resize_bond inc t 0 d = (t', d <? a) /\ dims t' = [nb inc a d; i; c] /\ wf t' /\    forall x y z, x < nb inc a d -> y < i -> z < c ->
      get t' [x; y; z] = if x <? a then get t [x; y; z] else 0%K.
Proof.
  intros Ht Hw. unfold resize_bond. replace (dim t 0) with a by (unfold dim; rewrite Ht; reflexivity).
  assert (HC : forall n, dims (change_dimension t 0 n) = [n; i; c] /\ wf (change_dimension t 0 n) /\
     forall x y z, x < n -> y < i -> z < c -> get (change_dimension t 0 n) [x; y; z] = if x <? a then get t [x; y; z] else 0%K).
  { intros n. unfold change_dimension. rewrite dims_mk, Ht. split; [reflexivity|]. split; [apply wf_mk|].
    intros x y z Hx Hy Hz. rewrite get_mk by (apply in_range_3; assumption). cbn [nth]. unfold dim. rewrite Ht. reflexivity. }
  destruct (Nat.ltb_spec d a) as [H|H].
  - replace (nb inc a d) with d by (unfold nb; destruct inc; lia). eexists. split; [reflexivity|]. apply HC.
  - destruct inc; cbn [andb].
    + destruct (Nat.ltb_spec a d) as [H2|H2]; [eexists; split; [reflexivity|]; apply HC|].
      assert (d = a) by lia. subst d. exists t. split; [reflexivity|]. split; [exact Ht|]. split; [exact Hw|].
      intros x y z Hx _ _. destruct (Nat.ltb_spec x a); [reflexivity|unfold nb in *; lia].
    + unfold nb. rewrite Nat.min_l by lia. exists t. split; [reflexivity|]. split; [exact Ht|]. split; [exact Hw|].
      intros x y z Hx _ _. destruct (Nat.ltb_spec x a); [reflexivity|lia].
Qed.

Lemma resize2 inc t d a i c : dims t = [a; i; c] -> wf t ->
  exists t', resize_bond inc t 2 d = (t', d <? c) /\ dims t' = [a; i; nb inc c d] /\ wf t' /\
    forall x y z, x < a -> y < i -> z < nb inc c d ->
      get t' [x; y; z] = if z <? c then get t [x; y; z] else 0%K.
Proof.
  intros Ht Hw. unfold resize_bond. replace (dim t 2) with c by (unfold dim; rewrite Ht; reflexivity).
  assert (HC : forall n, dims (change_dimension t 2 n) = [a; i; n] /\ wf (change_dimension t 2 n) /\
     forall x y z, x < a -> y < i -> z < n -> get (change_dimension t 2 n) [x; y; z] = if z <? c then get t [x; y; z] else 0%K).
  { intros n. unfold change_dimension. rewrite dims_mk, Ht. split; [reflexivity|]. split; [apply wf_mk|].
    intros x y z Hx Hy Hz. rewrite get_mk by (apply in_range_3; assumption). cbn [nth]. unfold dim. rewrite Ht. reflexivity. }
  destruct (Nat.ltb_spec d c) as [H|H].
  - replace (nb inc c d) with d by (unfold nb; destruct inc; lia). eexists. split; [reflexivity|]. apply HC.
  - destruct inc; cbn [andb].
    + destruct (Nat.ltb_spec c d) as [H2|H2]; [eexists; split; [reflexivity|]; apply HC|].
      assert (d = c) by lia. subst d. exists t. split; [reflexivity|]. split; [exact Ht|]. split; [exact Hw|].
      intros x y z _ _ Hz. destruct (Nat.ltb_spec z c); [reflexivity|unfold nb in *; lia].
    + unfold nb. rewrite Nat.min_l by lia. exists t. split; [reflexivity|]. split; [exact Ht|]. split; [exact Hw|].
      intros x y z _ _ Hz. destruct (Nat.ltb_spec z c); [reflexivity|lia].
Qed.

Lemma linked_pdims_pos l psi r : linked l psi r -> Forall (fun d => 0 < d) (pdims psi).
Proof.
  revert l. induction psi as [|A psi IH]; intros l H; cbn; [constructor|].
  destruct H as (d & c & HA & _ & Hd & _ & H). constructor; [unfold dim; rewrite HA; exact Hd|eapply IH; exact H].
Qed.

Lemma bond_dims l psi r k : linked l psi r -> k < length psi ->
  exists d, dims (site psi k) = [bond psi k; d; bond psi (S k)] /\ wf (site psi k) /\ 0 < d /\ 0 < bond psi (S k).
Proof.
  intros H Hk. unfold bond. destruct (Nat.ltb_spec k (length psi)); [|lia].
  revert l k Hk H0 H. induction psi as [|A psi IH]; intros l k Hk H0 H; [cbn in Hk; lia|].
  destruct H as (d & c & HA & HwA & Hd & Hc & H). destruct k as [|k].
  - exists d. cbn [site nth length]. unfold site. cbn [nth].
    destruct psi as [|B psi].
    + cbn. unfold dim. rewrite HA. cbn. auto.
    + destruct (Nat.ltb_spec 1 (S (length (B :: psi)))); [|cbn in *; lia]. cbn [nth].
      destruct H as (d2 & c2 & HB & _). unfold dim. rewrite HA, HB. cbn. auto.
  - cbn in Hk. destruct (IH c k) as (d' & H1 & H2 & H3 & H4); [lia|lia|exact H|].
    assert (HS : (if S (S k) <? length (A :: psi) then dim (site (A :: psi) (S (S k))) 0
                  else dim (site (A :: psi) (length (A :: psi) - 1)) 2)
               = (if S k <? length psi then dim (site psi (S k)) 0 else dim (site psi (length psi - 1)) 2)).
    { cbn [length]. destruct (Nat.ltb_spec (S (S k)) (S (length psi))); destruct (Nat.ltb_spec (S k) (length psi)); try lia.
      - reflexivity.
      - replace (S (length psi) - 1) with (S (length psi - 1)) by lia. reflexivity. }
    exists d'. rewrite HS. unfold site in *. cbn [nth]. auto.
Qed.

Lemma bond_0 l psi r : linked l psi r -> psi <> [] -> bond psi 0 = l.
Proof.
  intros H Hn. destruct psi as [|A psi]; [congruence|]. destruct H as (d & c & HA & _). unfold bond. cbn.
  unfold dim. rewrite HA. reflexivity.
Qed.

Lemma bond_last l psi r : linked l psi r -> psi <> [] -> bond psi (length psi) = r.
Proof.
  intros H Hn. unfold bond. rewrite Nat.ltb_irrefl. eapply linked_last; eassumption.
Qed.

(** Zero padding does not change the amplitudes. *)
Lemma chain_padded P : forall l r Q l' r' is, linked l P r -> linked l' Q r' -> length Q = length P ->
  pdims Q = pdims P ->
  (forall k, k < length P -> dim (site P k) 0 <= dim (site Q k) 0 /\ dim (site P k) 2 <= dim (site Q k) 2) ->
  (forall k a i b, k < length P -> a < dim (site Q k) 0 -> i < dim (site P k) 1 -> b < dim (site Q k) 2 ->
     get (site Q k) [a; i; b] = if (a <? dim (site P k) 0) && (b <? dim (site P k) 2) then get (site P k) [a; i; b] else 0%K) ->
  in_range (pdims P) is ->
  (forall a b, a < l -> b < r -> chain Q is a b = chain P is a b) /\
  (P <> [] -> forall a b, l <= a -> a < l' -> chain Q is a b = 0%K).
Proof.
  induction P as [|A P IH]; intros l r Q l' r' is HP HQ Hlen Hpd Hle Hget His.
  - destruct Q; [|discriminate]. apply in_range_nil_inv in His. subst is.
    split; [reflexivity|]. intros H; congruence.
  - destruct Q as [|B Q]; [discriminate|].
    destruct HP as (d & c & HA & HwA & Hd & Hc & HP). destruct HQ as (d' & c' & HB & HwB & Hd' & Hc' & HQ).
    assert (HA0 : dim A 0 = l) by (unfold dim; rewrite HA; reflexivity).
    assert (HA1 : dim A 1 = d) by (unfold dim; rewrite HA; reflexivity).
    assert (HA2 : dim A 2 = c) by (unfold dim; rewrite HA; reflexivity).
    assert (HB0 : dim B 0 = l') by (unfold dim; rewrite HB; reflexivity).
    assert (HB2 : dim B 2 = c') by (unfold dim; rewrite HB; reflexivity).
    assert (Hle0 : l <= l' /\ c <= c').
    { destruct (Hle 0) as (H1 & H2); [cbn; lia|]. unfold site in *. cbn [nth] in *. lia. }
    assert (Hg0 : forall a i b, a < l' -> i < d -> b < c' ->
       get B [a; i; b] = if (a <? l) && (b <? c) then get A [a; i; b] else 0%K).
    { intros a i b Ha Hi Hb. specialize (Hget 0 a i b). unfold site in Hget. cbn [nth length] in Hget.
      rewrite HA0, HA1, HA2, HB0, HB2 in Hget. apply Hget; auto; lia. }
    cbn [pdims map] in His. apply in_range_cons_inv in His. destruct His as (i & is' & -> & Hi & His).
    rewrite HA1 in Hi.
    destruct (IH c r Q c' r' is' HP HQ) as (IH1 & IH2).
    { cbn in Hlen. lia. }
    { cbn in Hpd. injection Hpd as _ Hpd. exact Hpd. }
    { intros k Hk. apply (Hle (S k)). cbn. lia. }
    { intros k a j b Hk. apply (Hget (S k)). cbn. lia. }
    { exact His. }
    split.
    + intros a b Ha Hb. cbn [chain]. rewrite HA2, HB2.
      replace c' with (c + (c' - c)) by lia. rewrite sum_plus.
      rewrite (sum_zero (c' - c)).
      2:{ intros x Hx. rewrite Hg0 by lia. destruct (Nat.ltb_spec (c + x) c); [lia|]. rewrite andb_false_r. ring. }
      transitivity (sum c (fun x => get B [a; i; x] * chain Q is' x b)%K); [ring|].
      apply sum_ext. intros x Hx. rewrite Hg0 by lia.
      destruct (Nat.ltb_spec a l); [|lia]. destruct (Nat.ltb_spec x c); [|lia]. cbn [andb]. rewrite IH1 by lia. reflexivity.
    + intros _ a b Ha Ha'. cbn [chain]. rewrite HB2. apply sum_zero. intros x Hx. rewrite Hg0 by lia.
      destruct (Nat.ltb_spec a l); [lia|]. cbn [andb]. ring.
Qed.

Lemma map_fst_site (f : nat -> tensor * bool) n k : k < n -> site (map fst (map f (seq 0 n))) k = fst (f k).
Proof. intros H. rewrite map_map. unfold site. apply (nth_map_seq (fun k => fst (f k))). exact H. Qed.

Lemma truncate_spec P D D' Dmax periodic increase : linked D P D' -> 0 < D -> P <> [] -> (0 < Dmax)%Z ->
  let cap := bond_cap (pdims P) (Z.to_nat Dmax) periodic in
  exists Q f, truncate P Dmax periodic increase = Ok (Q, f) /\
    length Q = length P /\ pdims Q = pdims P /\
    linked (nb increase (bond P 0) (cap 0)) Q (nb increase (bond P (length P)) (cap (length P))) /\
    (forall k, k <= length P -> bond Q k = nb increase (bond P k) (cap k)) /\
    (forall k a i b, k < length P -> a < bond Q k -> i < nth k (pdims P) 0 -> b < bond Q (S k) ->
       get (site Q k) [a; i; b] = if (a <? bond P k) && (b <? bond P (S k)) then get (site P k) [a; i; b] else 0%K) /\
    (f = true <-> exists k, k <= length P /\ cap k < bond P k) /\
    (f = false -> forall is, in_range (pdims P) is -> D = D' -> 
       amp Q is = amp P is).
Proof.
  intros HP HD0 Hne HD cap.
  assert (HlP : 0 < length P) by (destruct P; [congruence|cbn; lia]).
  pose proof (linked_pdims_pos _ _ _ HP) as Hpos.
  destruct (expected_dimensions_spec P (Z.to_nat Dmax) ltac:(lia) Hpos periodic HlP) as (Hle & Hnth).
  fold cap in Hnth. set (E := expected_dimensions P (Z.to_nat Dmax) periodic) in *.
  assert (Hcap : forall k, k <= length P -> 0 < cap k).
  { intros k Hk. unfold cap, bond_cap. destruct periodic; [lia|].
    assert (0 < left_capacity (pdims P) k /\ 0 < right_capacity (pdims P) k); [|lia].
    split; apply nprod_pos; rewrite Forall_forall in *; intros x Hx; apply Hpos;
    rewrite <- (firstn_skipn k (pdims P)); apply in_or_app; auto. }
  set (sitek := fun k => let '(Qk, t1) := resize_bond increase (site P k) 0 (nth k E 0) in
      let '(Qk, t2) := resize_bond increase Qk 2 (nth (k + 1) E 0) in (Qk, t1 || t2)).
  assert (Hsite : forall k, k < length P -> exists d, d = nth k (pdims P) 0 /\ 0 < d /\
     dims (fst (sitek k)) = [nb increase (bond P k) (cap k); d; nb increase (bond P (S k)) (cap (S k))] /\
     wf (fst (sitek k)) /\ snd (sitek k) = (cap k <? bond P k) || (cap (S k) <? bond P (S k)) /\
     forall a i b, a < nb increase (bond P k) (cap k) -> i < d -> b < nb increase (bond P (S k)) (cap (S k)) ->
       get (fst (sitek k)) [a; i; b] = if (a <? bond P k) && (b <? bond P (S k)) then get (site P k) [a; i; b] else 0%K).
  { intros k Hk. destruct (bond_dims _ _ _ k HP Hk) as (d & Hd1 & Hd2 & Hd3 & Hd4). exists d.
    split; [rewrite nth_pdims by exact Hk; unfold dim; rewrite Hd1; reflexivity|]. split; [exact Hd3|].
    unfold sitek. rewrite !Hnth by lia. replace (k + 1) with (S k) by lia.
    destruct (resize0 increase (site P k) (cap k) _ _ _ Hd1 Hd2) as (t1 & -> & Ht1 & Hw1 & Hg1).
    destruct (resize2 increase t1 (cap (S k)) _ _ _ Ht1 Hw1) as (t2 & -> & Ht2 & Hw2 & Hg2).
    cbn [fst snd]. split; [exact Ht2|]. split; [exact Hw2|]. split; [reflexivity|].
    intros a i b Ha Hi Hb. rewrite Hg2 by assumption.
    destruct (Nat.ltb_spec b (bond P (S k))); [|rewrite andb_false_r; reflexivity].
    rewrite andb_true_r. apply Hg1; assumption. }
  set (Q := map fst (map sitek (seq 0 (length P)))).
  assert (HlQ : length Q = length P) by (unfold Q; rewrite !map_length, seq_length; reflexivity).
  assert (HsQ : forall k, k < length P -> site Q k = fst (sitek k)) by (intros; apply map_fst_site; assumption).
  assert (Hlk : linked (nb increase (bond P 0) (cap 0)) Q (nb increase (bond P (length P)) (cap (length P)))).
  { unfold Q. rewrite map_map. 
    apply (linked_map_seq (fun k => fst (sitek k)) (fun k => nb increase (bond P k) (cap k)) 0 (length P)).
    intros k (_ & Hk). destruct (Hsite k Hk) as (d & _ & Hd0 & H1 & H2 & _). exists d.
    split; [exact H1|]. split; [exact H2|]. split; [exact Hd0|].
    destruct (bond_dims _ _ _ k HP Hk) as (_ & _ & _ & _ & Hb). pose proof (Hcap (S k) ltac:(lia)).
    unfold nb. destruct increase; lia. }
  assert (HQne : Q <> []) by (intros H; rewrite H in HlQ; cbn in HlQ; lia).
  assert (Hbond : forall k, k <= length P -> bond Q k = nb increase (bond P k) (cap k)).
  { intros k Hk. destruct (Nat.eq_dec k (length P)) as [->|Hk'].
    - rewrite <- HlQ at 1. apply (bond_last _ _ _ Hlk HQne).
    - unfold bond at 1. rewrite HlQ. destruct (Nat.ltb_spec k (length P)); [|lia].
      rewrite HsQ by assumption. destruct (Hsite k ltac:(lia)) as (d & _ & _ & H1 & _). unfold dim. rewrite H1. reflexivity. }
  assert (Hpd : pdims Q = pdims P).
  { apply nth_ext with (d := 0) (d' := 0); [unfold pdims; rewrite !map_length; exact HlQ|].
    intros k Hk. assert (Hk' : k < length P) by (unfold pdims in Hk; rewrite map_length, HlQ in Hk; exact Hk).
    rewrite nth_pdims by lia. rewrite HsQ by exact Hk'. destruct (Hsite k Hk') as (d & -> & _ & H1 & _).
    unfold dim. rewrite H1. reflexivity. }
  assert (Hgq : forall k a i b, k < length P -> a < bond Q k -> i < nth k (pdims P) 0 -> b < bond Q (S k) ->
       get (site Q k) [a; i; b] = if (a <? bond P k) && (b <? bond P (S k)) then get (site P k) [a; i; b] else 0%K).
  { intros k a i b Hk Ha Hi Hb. rewrite HsQ by exact Hk. destruct (Hsite k Hk) as (d & -> & _ & _ & _ & _ & Hg).
    rewrite !Hbond in * by lia. apply Hg; assumption. }
  exists Q, (existsb snd (map sitek (seq 0 (length P)))).
  assert (Hf : existsb snd (map sitek (seq 0 (length P))) = true <-> exists k, k <= length P /\ cap k < bond P k).
  { rewrite existsb_exists. split.
    - intros (x & Hx & Hs). apply in_map_iff in Hx. destruct Hx as (k & <- & Hk). apply in_seq in Hk.
      destruct (Hsite k ltac:(lia)) as (d & _ & _ & _ & _ & Hs' & _). rewrite Hs' in Hs.
      apply orb_true_iff in Hs. rewrite !Nat.ltb_lt in Hs. destruct Hs; [exists k|exists (S k)]; split; lia.
    - intros (k & Hk & Hc). destruct (Nat.eq_dec k (length P)) as [E'|E'].
      + exists (sitek (k - 1)). split; [apply in_map, in_seq; lia|].
        destruct (Hsite (k - 1) ltac:(lia)) as (d & _ & _ & _ & _ & -> & _).
        replace (S (k - 1)) with k by lia. apply orb_true_iff. right. apply Nat.ltb_lt. exact Hc.
      + exists (sitek k). split; [apply in_map, in_seq; lia|].
        destruct (Hsite k ltac:(lia)) as (d & _ & _ & _ & _ & -> & _). apply orb_true_iff. left. apply Nat.ltb_lt. exact Hc. }
  split.
  { unfold truncate. destruct (Z.eqb_spec Dmax 0); [lia|]. destruct (Z.ltb_spec Dmax 0); [lia|]. reflexivity. }
  split; [exact HlQ|]. split; [exact Hpd|]. split; [exact Hlk|]. split; [exact Hbond|]. split; [exact Hgq|].
  split; [exact Hf|].
  intros Hff is His HDD. subst D'.
  assert (Hnt : forall k, k <= length P -> bond P k <= cap k).
  { intros k Hk. destruct (Nat.le_gt_cases (bond P k) (cap k)) as [H|H]; [exact H|].
    rewrite (proj2 Hf) in Hff; [discriminate|]. exists k. auto. }
  assert (Hge : forall k, k <= length P -> bond P k <= bond Q k).
  { intros k Hk. rewrite Hbond by exact Hk. pose proof (Hnt k Hk). unfold nb. destruct increase; lia. }
  assert (HbP : forall k, k < length P -> dim (site P k) 0 = bond P k /\ dim (site P k) 2 = bond P (S k)).
  { intros k Hk. destruct (bond_dims _ _ _ k HP Hk) as (d & Hd1 & _). unfold dim. rewrite Hd1. auto. }
  assert (HbQ : forall k, k < length P -> dim (site Q k) 0 = bond Q k /\ dim (site Q k) 2 = bond Q (S k)).
  { intros k Hk. rewrite <- HlQ in Hk. destruct (bond_dims _ _ _ k Hlk Hk) as (d & Hd1 & _). unfold dim. rewrite Hd1. auto. }
  destruct (chain_padded P D D Q _ _ is HP Hlk HlQ Hpd) as (Hc1 & Hc2); auto.
  { intros k Hk. destruct (HbP k Hk) as (-> & ->). destruct (HbQ k Hk) as (-> & ->). split; apply Hge; lia. }
  { intros k a i b Hk Ha Hi Hb. destruct (HbP k Hk) as (-> & ->). destruct (HbQ k Hk) as (Eq1 & Eq2). rewrite Eq1 in Ha. rewrite Eq2 in Hb.
    apply Hgq; auto. rewrite nth_pdims by exact Hk. exact Hi. }
  unfold amp. rewrite (linked_left_bond _ _ _ Hne HP), (linked_left_bond _ _ _ HQne Hlk).
  assert (HL : D <= nb increase (bond P 0) (cap 0)).
  { rewrite <- Hbond by lia. rewrite <- (bond_0 _ _ _ HP Hne). apply Hge. lia. }
  set (D2 := nb increase (bond P 0) (cap 0)) in *. clearbody D2.
  replace D2 with (D + (D2 - D)) by lia. rewrite sum_plus. rewrite (sum_zero (D2 - D)).
  2:{ intros x Hx. apply Hc2; auto; lia. }
  transitivity (sum D (fun a => chain Q is a a)); [ring|].
  apply sum_ext. intros a Ha. apply Hc1; assumption.
Qed.

End Facts.
