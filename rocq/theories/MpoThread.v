(** The structure of MPOs built by the add_* functions, and the effect of adding one bond state. *)
From Coq Require Import Bool List Arith ZArith Lia Ring.
From Verif Require Import Scalar ScalarFacts Tensor TensorFacts Spec MpsModel MpsFacts EnvFacts
  ExpectedFacts MpoSpec MpoModel MpoFacts.
Import ListNotations.
Local Open Scope K_scope.

Section Thread.
Context {SC : Scalar}.
Add Ring Kring : k_ring.

(** State 1 closes a term in the middle of the chain, state 0 at its end. *)
Definition fin (n k : nat) : nat := if Nat.eqb (S k) n then 0%nat else 1%nat.

Record hform (ds : list nat) (b : nat -> nat) (O : mpo) : Prop := {
  hf_len : length O = length ds;
  hf_n : (2 <= length ds)%nat;
  hf_pos : forall k, (k < length ds)%nat -> (0 < nth k ds 0%nat)%nat;
  hf_b0 : b 0%nat = 1%nat;
  hf_bn : b (length ds) = 1%nat;
  hf_b : forall k, (0 < k < length ds)%nat -> (2 <= b k)%nat;
  hf_dims : forall k, (k < length ds)%nat ->
     dims (site O k) = [b k; nth k ds 0%nat; nth k ds 0%nat; b (S k)];
  hf_wf : forall k, (k < length ds)%nat -> wf (site O k);
  hf_col : forall k a i j, (S k < length ds)%nat -> (a < b k)%nat -> (i < nth k ds 0%nat)%nat ->
     (j < nth k ds 0%nat)%nat -> get (site O k) [a; i; j; 0%nat] = delta a 0 * delta i j;
  hf_row : forall k c i j, (0 < k < length ds)%nat -> (c < b (S k))%nat -> (i < nth k ds 0%nat)%nat ->
     (j < nth k ds 0%nat)%nat -> get (site O k) [1%nat; i; j; c] = delta c (fin (length ds) k) * delta i j
}.

Lemma skipn_site (O : mpo) k : (k < length O)%nat -> skipn k O = site O k :: skipn (S k) O.
Proof.
  unfold site. revert k. induction O as [|A O IH]; intros [|k] H; cbn in H; try lia; [reflexivity|].
  cbn [skipn nth]. apply IH. lia.
Qed.

Lemma skipn_nth (l : list nat) k : (k < length l)%nat -> skipn k l = nth k l 0%nat :: skipn (S k) l.
Proof.
  revert k. induction l as [|A l IH]; intros [|k] H; cbn in H; try lia; [reflexivity|].
  cbn [skipn nth]. apply IH. lia.
Qed.

Section Form.
Variables (ds : list nat) (b : nat -> nat) (O : mpo).
Hypothesis HF : hform ds b O.
Let n := length ds.

Lemma hform_bpos k : (k <= n)%nat -> (0 < b k)%nat.
Proof.
  intros Hk. destruct (Nat.eq_dec k 0) as [->|H0]; [rewrite (hf_b0 _ _ _ HF); lia|].
  destruct (Nat.eq_dec k n) as [->|Hn]; [unfold n; rewrite (hf_bn _ _ _ HF); lia|].
  pose proof (hf_b _ _ _ HF k). unfold n in *. lia.
Qed.

Lemma hform_linked k : (k <= n)%nat -> mlinked (b k) (skipn k O) 1.
Proof.
  intros Hk. remember (n - k)%nat as m eqn:E. revert k Hk E.
  induction m as [|m IH]; intros k Hk E.
  - replace k with (length O) by (rewrite (hf_len _ _ _ HF); fold n; lia).
    rewrite skipn_all. cbn. rewrite (hf_len _ _ _ HF). apply (hf_bn _ _ _ HF).
  - assert (Hk' : (k < length ds)%nat) by (fold n; lia).
    rewrite skipn_site by (rewrite (hf_len _ _ _ HF); exact Hk'). cbn [mlinked].
    exists (nth k ds 0%nat), (nth k ds 0%nat), (b (S k)).
    pose proof (hf_pos _ _ _ HF k Hk').
    split; [apply (hf_dims _ _ _ HF); exact Hk'|]. split; [apply (hf_wf _ _ _ HF); exact Hk'|].
    split; [assumption|]. split; [assumption|]. split; [apply hform_bpos; fold n in Hk'; lia|].
    apply IH; fold n in Hk'; lia.
Qed.

Lemma hform_open : open_mpo O.
Proof.
  split; [|pose proof (hform_linked 0) as H; rewrite (hf_b0 _ _ _ HF) in H; apply H; lia].
  intros E. pose proof (hf_len _ _ _ HF) as H. rewrite E in H. pose proof (hf_n _ _ _ HF). cbn in H. lia.
Qed.

Lemma hform_odims : odims O = ds /\ idims O = ds.
Proof.
  assert (forall f, (forall k, (k < n)%nat -> f (site O k) = nth k ds 0%nat) -> map f O = ds).
  { intros f H. apply (nth_ext _ _ (f empty) 0%nat); [rewrite map_length; apply (hf_len _ _ _ HF)|].
    intros k Hk. rewrite map_length, (hf_len _ _ _ HF) in Hk. rewrite map_nth. apply H. exact Hk. }
  split; apply H; intros k Hk; unfold dim; rewrite (hf_dims _ _ _ HF) by exact Hk; reflexivity.
Qed.

Lemma opelem_hform is js : opelem O is js = mchain O is js 0 0.
Proof.
  destruct hform_open as (H1 & H2). unfold opelem. rewrite (mlinked_left _ _ _ H1 H2). rewrite sum_1. reflexivity.
Qed.

(** One step of the suffix value *)
Lemma mchain_step k i j is js a : (k < n)%nat ->
  mchain (skipn k O) (i :: is) (j :: js) a 0 =
  sum (b (S k)) (fun c => get (site O k) [a; i; j; c] * mchain (skipn (S k) O) is js c 0).
Proof.
  intros Hk. rewrite skipn_site by (rewrite (hf_len _ _ _ HF); exact Hk). cbn [mchain].
  unfold dim. rewrite (hf_dims _ _ _ HF) by exact Hk. reflexivity.
Qed.

(** From the closing state the rest of the chain is the identity. *)
Lemma closing_suffix k is js : (k < n)%nat -> in_range (skipn (S k) ds) is -> in_range (skipn (S k) ds) js ->
  mchain (skipn (S k) O) is js (fin n k) 0 = id_op is js.
Proof.
  intros Hk. remember (n - S k)%nat as m eqn:E. revert k is js Hk E.
  induction m as [|m IH]; intros k is js Hk E His Hjs.
  - assert (E' : S k = length ds) by (fold n; lia).
    rewrite E', skipn_all in His, Hjs. apply in_range_nil_inv in His, Hjs. subst is js.
    rewrite E', <- (hf_len _ _ _ HF), skipn_all. unfold fin.
    replace (Nat.eqb (S k) n) with true by (symmetry; apply Nat.eqb_eq; exact E'). reflexivity.
  - assert (Hk' : (S k < length ds)%nat) by (fold n; lia).
    rewrite skipn_nth in His, Hjs by exact Hk'.
    apply in_range_cons_inv in His. destruct His as (i & is' & -> & Hi & His).
    apply in_range_cons_inv in Hjs. destruct Hjs as (j & js' & -> & Hj & Hjs).
    unfold fin at 1. destruct (Nat.eqb_spec (S k) n) as [En|En]; [fold n in Hk'; lia|].
    rewrite mchain_step by exact Hk'.
    transitivity (sum (b (S (S k))) (fun c => delta c (fin n (S k)) * (delta i j * mchain (skipn (S (S k)) O) is' js' c 0))).
    { apply sum_ext. intros c Hc. rewrite (hf_row _ _ _ HF); try assumption; [|lia]. fold n. ring. }
    rewrite sum_delta_l.
    + rewrite IH; try assumption; try (fold n in Hk'; lia). reflexivity.
    + unfold fin. destruct (Nat.eqb_spec (S (S k)) n); [apply hform_bpos; lia|].
      pose proof (hf_b _ _ _ HF (S (S k))). fold n in H. fold n in Hk'. lia.
Qed.

End Form.

(** ** Adding one state to the bonds strictly between sites s and e *)
Definition nb (s e k : nat) : bool := Nat.ltb s k && Nat.ltb k e.

Record thread (ds : list nat) (b : nat -> nat) (O O' : mpo) (s e : nat)
  (U T C D : nat -> nat -> nat -> K) : Prop := {
  th_e : (e <= length ds)%nat;
  th_len : length O' = length ds;
  th_dims : forall k, (k < length ds)%nat ->
     dims (site O' k) = [(b k + (if nb s e k then 1 else 0))%nat; nth k ds 0%nat; nth k ds 0%nat;
                         (b (S k) + (if nb s e (S k) then 1 else 0))%nat];
  th_wf : forall k, (k < length ds)%nat -> wf (site O' k);
  th_old : forall k a c i j, (k < length ds)%nat -> (a < b k)%nat -> (c < b (S k))%nat ->
     (i < nth k ds 0%nat)%nat -> (j < nth k ds 0%nat)%nat ->
     get (site O' k) [a; i; j; c] =
     get (site O k) [a; i; j; c] + delta a 0 * delta c (fin (length ds) k) * D k i j;
  th_open : forall k a i j, (k < length ds)%nat -> (a < b k)%nat -> nb s e (S k) = true ->
     (i < nth k ds 0%nat)%nat -> (j < nth k ds 0%nat)%nat ->
     get (site O' k) [a; i; j; b (S k)] = delta a 0 * U k i j;
  th_close : forall k c i j, (k < length ds)%nat -> nb s e k = true -> (c < b (S k))%nat ->
     (i < nth k ds 0%nat)%nat -> (j < nth k ds 0%nat)%nat ->
     get (site O' k) [b k; i; j; c] = delta c (fin (length ds) k) * C k i j;
  th_transit : forall k i j, (k < length ds)%nat -> nb s e k = true -> nb s e (S k) = true ->
     (i < nth k ds 0%nat)%nat -> (j < nth k ds 0%nat)%nat ->
     get (site O' k) [b k; i; j; b (S k)] = T k i j;
  th_noU : forall k i j, nb s e (S k) = false -> U k i j = 0;
  th_noT : forall k i j, nb s e (S k) = false -> T k i j = 0
}.

(** Value of the chain from the new state, and the added value, by recursion on the sites *)
Fixpoint Cl (T C : nat -> nat -> nat -> K) (k : nat) (is js : list nat) : K :=
  match is, js with
  | i :: is', j :: js' => C k i j * id_op is' js' + T k i j * Cl T C (S k) is' js'
  | _, _ => 0
  end.

Fixpoint Nw (U T C D : nat -> nat -> nat -> K) (k : nat) (is js : list nat) : K :=
  match is, js with
  | i :: is', j :: js' =>
      D k i j * id_op is' js' + U k i j * Cl T C (S k) is' js' + delta i j * Nw U T C D (S k) is' js'
  | _, _ => 0
  end.

Section Threading.
Variables (ds : list nat) (b : nat -> nat) (O O' : mpo) (s e : nat) (U T C D : nat -> nat -> nat -> K).
Hypothesis HF : hform ds b O.
Hypothesis HT : thread ds b O O' s e U T C D.
Let n := length ds.
Let b' := fun k => (b k + (if nb s e k then 1 else 0))%nat.

Lemma nb_lt k : nb s e k = true -> (0 < k < n)%nat.
Proof.
  unfold nb. intros H. apply andb_true_iff in H. destruct H as (H1 & H2).
  apply Nat.ltb_lt in H1, H2. pose proof (th_e _ _ _ _ _ _ _ _ _ _ HT). unfold n. lia.
Qed.

Lemma fin_lt k : (k < n)%nat -> (fin n k < b (S k))%nat.
Proof.
  intros Hk. unfold fin. destruct (Nat.eqb_spec (S k) n) as [E|E].
  - apply (hform_bpos ds b O HF). unfold n in *. lia.
  - pose proof (hf_b _ _ _ HF (S k)). unfold n in *. lia.
Qed.

Lemma thread_hform : hform ds b' O'.
Proof.
  constructor.
  - apply (th_len _ _ _ _ _ _ _ _ _ _ HT).
  - apply (hf_n _ _ _ HF).
  - apply (hf_pos _ _ _ HF).
  - unfold b'. replace (nb s e 0) with false by reflexivity. rewrite (hf_b0 _ _ _ HF). reflexivity.
  - unfold b'. destruct (nb s e (length ds)) eqn:E.
    + apply nb_lt in E. unfold n in E. lia.
    + rewrite (hf_bn _ _ _ HF). reflexivity.
  - intros k Hk. unfold b'. pose proof (hf_b _ _ _ HF k Hk). lia.
  - apply (th_dims _ _ _ _ _ _ _ _ _ _ HT).
  - apply (th_wf _ _ _ _ _ _ _ _ _ _ HT).
  - intros k a i j Hk Ha Hi Hj. unfold b' in Ha.
    assert (H0 : (0 < b (S k))%nat) by (apply (hform_bpos ds b O HF); lia).
    assert (Hfin : fin (length ds) k = 1%nat).
    { unfold fin. destruct (Nat.eqb_spec (S k) (length ds)); [lia|reflexivity]. }
    destruct (lt_dec a (b k)) as [Ha'|Ha'].
    + rewrite (th_old _ _ _ _ _ _ _ _ _ _ HT) by (assumption || lia).
      rewrite (hf_col _ _ _ HF) by assumption. rewrite Hfin, (delta_neq 0 1) by lia. ring.
    + destruct (nb s e k) eqn:E; [|lia]. replace a with (b k) by lia.
      rewrite (th_close _ _ _ _ _ _ _ _ _ _ HT) by (assumption || lia). rewrite Hfin.
      pose proof (hform_bpos ds b O HF k ltac:(lia)). rewrite (delta_neq (b k) 0), (delta_neq 0 1) by lia. ring.
  - intros k c i j Hk Hc Hi Hj. unfold b' in Hc. pose proof (hf_b _ _ _ HF k Hk).
    pose proof (fin_lt k ltac:(unfold n; lia)) as Hfin.
    destruct (lt_dec c (b (S k))) as [Hc'|Hc'].
    + rewrite (th_old _ _ _ _ _ _ _ _ _ _ HT) by (assumption || lia).
      rewrite (hf_row _ _ _ HF) by assumption. rewrite (delta_neq 1 0) by lia. ring.
    + destruct (nb s e (S k)) eqn:E; [|lia]. replace c with (b (S k)) by lia.
      rewrite (th_open _ _ _ _ _ _ _ _ _ _ HT) by (assumption || lia).
      rewrite (delta_neq (b (S k))), (delta_neq 1 0) by (unfold n in Hfin; lia). ring.
Qed.

Lemma thread_suffix k is js : (k <= n)%nat -> in_range (skipn k ds) is -> in_range (skipn k ds) js ->
  (forall a, (a < b k)%nat -> mchain (skipn k O') is js a 0 =
      mchain (skipn k O) is js a 0 + delta a 0 * Nw U T C D k is js) /\
  (nb s e k = true -> mchain (skipn k O') is js (b k) 0 = Cl T C k is js).
Proof.
  intros Hk. remember (n - k)%nat as m eqn:E. revert k is js Hk E.
  induction m as [|m IH]; intros k is js Hk E His Hjs.
  - assert (E' : k = length ds) by (fold n; lia).
    assert (S1 : skipn k O = []) by (rewrite E', <- (hf_len _ _ _ HF); apply skipn_all).
    assert (S2 : skipn k O' = []) by (rewrite E', <- (th_len _ _ _ _ _ _ _ _ _ _ HT); apply skipn_all).
    rewrite E', skipn_all in His, Hjs. apply in_range_nil_inv in His, Hjs. subst is js.
    rewrite S1, S2. split.
    + intros a Ha. cbn. ring.
    + intros H. apply nb_lt in H. unfold n in H. lia.
  - assert (Hk' : (k < length ds)%nat) by (fold n; lia).
    rewrite skipn_nth in His, Hjs by exact Hk'.
    apply in_range_cons_inv in His. destruct His as (i & is' & -> & Hi & His).
    apply in_range_cons_inv in Hjs. destruct Hjs as (j & js' & -> & Hj & Hjs).
    destruct (IH (S k) is' js' ltac:(fold n in Hk'; lia) ltac:(lia) His Hjs) as (IHold & IHnew).
    pose proof (fin_lt k ltac:(unfold n; lia)) as Hfin. unfold n in Hfin.
    assert (H0 : (0 < b (S k))%nat) by (apply (hform_bpos ds b O HF); lia).
    pose proof (closing_suffix ds b O HF k is' js' Hk' His Hjs) as Hclose.
    (* the sum over the new bond splits into old states and the new one *)
    assert (Hsum : forall f, sum (b' (S k)) f = sum (b (S k)) f + (if nb s e (S k) then f (b (S k)) else 0)).
    { intros f. unfold b'. destruct (nb s e (S k)).
      - rewrite Nat.add_1_r. reflexivity.
      - rewrite Nat.add_0_r. ring. }
    (* contribution N of the added terms: column 0 of site k *)
    assert (Hcol : forall a, (a < b k)%nat ->
       get (site O k) [a; i; j; 0%nat] * Nw U T C D (S k) is' js' =
       delta a 0 * (delta i j * Nw U T C D (S k) is' js')).
    { intros a Ha. destruct (Nat.eq_dec (S k) n) as [En|En].
      - rewrite En in His. unfold n in His. rewrite skipn_all in His. apply in_range_nil_inv in His.
        subst is'. cbn. ring.
      - rewrite (hf_col _ _ _ HF) by (try assumption; unfold n in En; lia). ring. }
    split.
    + intros a Ha. rewrite (mchain_step ds b' O' thread_hform) by exact Hk'.
      rewrite (mchain_step ds b O HF) by exact Hk'. rewrite Hsum.
      transitivity (sum (b (S k)) (fun c =>
          get (site O k) [a; i; j; c] * mchain (skipn (S k) O) is' js' c 0
          + delta c 0 * (get (site O k) [a; i; j; c] * Nw U T C D (S k) is' js')
          + delta c (fin n k) * (delta a 0 * D k i j * (mchain (skipn (S k) O) is' js' c 0 + delta c 0 * Nw U T C D (S k) is' js')))
        + (if nb s e (S k) then delta a 0 * U k i j * Cl T C (S k) is' js' else 0)).
      { f_equal.
        - apply sum_ext. intros c Hc. rewrite (th_old _ _ _ _ _ _ _ _ _ _ HT) by assumption.
          rewrite IHold by exact Hc. fold n. ring.
        - destruct (nb s e (S k)) eqn:En; [|reflexivity].
          rewrite (th_open _ _ _ _ _ _ _ _ _ _ HT) by assumption. rewrite IHnew by reflexivity. ring. }
      rewrite !sum_add, sum_delta_l by exact H0. rewrite sum_delta_l by exact Hfin.
      rewrite Hcol by exact Ha. unfold n. rewrite Hclose.
      assert (HfinN : delta (fin (length ds) k) 0 * Nw U T C D (S k) is' js' = 0).
      { unfold fin. destruct (Nat.eqb_spec (S k) (length ds)) as [En|En].
        - rewrite En, skipn_all in His. apply in_range_nil_inv in His. subst is'. cbn. ring.
        - rewrite delta_neq by lia. ring. }
      rewrite HfinN. cbn [Nw].
      assert (HU : (if nb s e (S k) then delta a 0 * U k i j * Cl T C (S k) is' js' else 0) =
                   delta a 0 * (U k i j * Cl T C (S k) is' js')).
      { destruct (nb s e (S k)) eqn:En; [ring|]. rewrite (th_noU _ _ _ _ _ _ _ _ _ _ HT) by exact En. ring. }
      rewrite HU. ring.
    + intros Hnew. rewrite (mchain_step ds b' O' thread_hform) by exact Hk'. rewrite Hsum.
      transitivity (sum (b (S k)) (fun c =>
          delta c (fin n k) * (C k i j * (mchain (skipn (S k) O) is' js' c 0 + delta c 0 * Nw U T C D (S k) is' js')))
        + (if nb s e (S k) then T k i j * Cl T C (S k) is' js' else 0)).
      { f_equal.
        - apply sum_ext. intros c Hc. rewrite (th_close _ _ _ _ _ _ _ _ _ _ HT) by assumption.
          rewrite IHold by exact Hc. fold n. ring.
        - destruct (nb s e (S k)) eqn:En; [|reflexivity].
          rewrite (th_transit _ _ _ _ _ _ _ _ _ _ HT) by assumption. rewrite IHnew by reflexivity. ring. }
      rewrite sum_delta_l by exact Hfin. unfold n. rewrite Hclose.
      assert (HfinN : delta (fin (length ds) k) 0 * Nw U T C D (S k) is' js' = 0).
      { unfold fin. destruct (Nat.eqb_spec (S k) (length ds)) as [En|En].
        - rewrite En, skipn_all in His. apply in_range_nil_inv in His. subst is'. cbn. ring.
        - rewrite delta_neq by lia. ring. }
      rewrite HfinN. cbn [Cl].
      destruct (nb s e (S k)) eqn:En; [ring|].
      rewrite (th_noT _ _ _ _ _ _ _ _ _ _ HT) by exact En. ring.
Qed.

Lemma thread_opelem is js : in_range ds is -> in_range ds js ->
  opelem O' is js = opelem O is js + Nw U T C D 0 is js.
Proof.
  intros His Hjs. rewrite (opelem_hform ds b' O' thread_hform), (opelem_hform ds b O HF).
  destruct (thread_suffix 0 is js) as (H & _); [lia|exact His|exact Hjs|].
  cbn [skipn] in H. rewrite H by (rewrite (hf_b0 _ _ _ HF); lia). rewrite delta_refl. ring.
Qed.

End Threading.

(** ** The added value as a sum of products *)
Lemma product_op_ext_in s f g is js :
  (forall k i j, (s <= k < s + length is)%nat -> f k i j = g k i j) ->
  product_op s f is js = product_op s g is js.
Proof.
  revert s js. induction is as [|i is IH]; intros s [|j js] H; cbn; try reflexivity.
  rewrite (H s i j) by (cbn; lia). f_equal. apply IH. intros k i' j' Hk. apply H. cbn. lia.
Qed.

Lemma product_op_zero s f is js k : (s <= k < s + length is)%nat -> length js = length is ->
  (forall i j, f k i j = 0) -> product_op s f is js = 0.
Proof.
  revert s js. induction is as [|i is IH]; intros s [|j js] Hk Hl H; cbn in *; try lia.
  destruct (Nat.eq_dec s k) as [->|Hne].
  - rewrite H. ring.
  - rewrite IH; [ring|lia|lia|exact H].
Qed.

Lemma Cl_sum T C k is js : length js = length is ->
  Cl T C k is js = sum (length is) (fun q =>
    product_op k (fun m => if Nat.eqb m (k + q) then C m else if Nat.ltb m (k + q) then T m else delta) is js).
Proof.
  revert k js. induction is as [|i is IH]; intros k [|j js] Hl; cbn in Hl; try lia; [reflexivity|].
  cbn [Cl length]. rewrite sum_S_l. f_equal.
  - cbn [product_op]. rewrite Nat.add_0_r, Nat.eqb_refl. f_equal.
    rewrite <- (product_op_id (S k)). apply product_op_ext_in. intros m i' j' Hm.
    destruct (Nat.eqb_spec m k); [lia|]. destruct (Nat.ltb_spec m k); [lia|reflexivity].
  - rewrite IH by lia. rewrite sum_mul_l. apply sum_ext. intros q Hq. cbn [product_op].
    destruct (Nat.eqb_spec k (k + S q)); [lia|]. destruct (Nat.ltb_spec k (k + S q)); [|lia].
    f_equal. apply product_op_ext_in. intros m i' j' Hm. rewrite Nat.add_succ_r. reflexivity.
Qed.

Definition pair_op (U T C : nat -> nat -> nat -> K) (k p q : nat) : list nat -> list nat -> K :=
  product_op k (fun m => if Nat.eqb m p then U m else if Nat.eqb m q then C m
                         else if Nat.ltb p m && Nat.ltb m q then T m else delta).

Lemma Nw_sum U T C D k is js : length js = length is ->
  Nw U T C D k is js =
  sum (length is) (fun p => product_op k (fun m => if Nat.eqb m (k + p) then D m else delta) is js)
  + sum (length is) (fun p => sum (length is) (fun q =>
      if Nat.ltb p q then pair_op U T C k (k + p) (k + q) is js else 0)).
Proof.
  revert k js. induction is as [|i is IH]; intros k [|j js] Hl; cbn in Hl; try lia; [cbn; ring|].
  cbn [Nw length]. rewrite (sum_S_l (length is) (fun p => product_op _ _ _ _)).
  rewrite (sum_S_l (length is) (fun p => sum _ _)). rewrite (sum_S_l (length is) (fun q => if Nat.ltb 0 q then _ else _)).
  change (Nat.ltb 0 0) with false. cbv iota.
  assert (E1 : product_op k (fun m => if Nat.eqb m (k + 0) then D m else delta) (i :: is) (j :: js)
               = D k i j * id_op is js).
  { cbn [product_op]. rewrite Nat.add_0_r, Nat.eqb_refl. f_equal. rewrite <- (product_op_id (S k)).
    apply product_op_ext_in. intros m i' j' Hm. destruct (Nat.eqb_spec m k); [lia|reflexivity]. }
  rewrite E1.
  assert (E2 : sum (length is) (fun q => if Nat.ltb 0 (S q) then pair_op U T C k (k + 0) (k + S q) (i :: is) (j :: js) else 0)
               = U k i j * Cl T C (S k) is js).
  { rewrite Cl_sum by lia. rewrite sum_mul_l. apply sum_ext. intros q Hq.
    change (Nat.ltb 0 (S q)) with true. cbv iota. unfold pair_op. cbn [product_op].
    rewrite Nat.add_0_r, Nat.eqb_refl. f_equal. apply product_op_ext_in. intros m i' j' Hm.
    destruct (Nat.eqb_spec m k); [lia|]. rewrite Nat.add_succ_r.
    destruct (Nat.eqb_spec m (S k + q)) as [->|]; [rewrite Nat.eqb_refl; reflexivity|].
    replace (Nat.eqb m (S (k + q))) with false by (symmetry; apply Nat.eqb_neq; lia).
    destruct (Nat.ltb_spec m (S k + q)), (Nat.ltb_spec k m), (Nat.ltb_spec m (S (k + q))); cbn; try reflexivity; lia. }
  rewrite E2.
  rewrite IH by lia.
  assert (E3 : sum (length is) (fun p => product_op k (fun m => if Nat.eqb m (k + S p) then D m else delta) (i :: is) (j :: js))
    = delta i j * sum (length is) (fun p => product_op (S k) (fun m => if Nat.eqb m (S k + p) then D m else delta) is js)).
  { rewrite sum_mul_l. apply sum_ext. intros p Hp. cbn [product_op].
    destruct (Nat.eqb_spec k (k + S p)); [lia|]. f_equal. apply product_op_ext_in. intros m i' j' Hm.
    rewrite Nat.add_succ_r. reflexivity. }
  rewrite E3.
  assert (E4 : sum (length is) (fun p => sum (S (length is)) (fun q =>
      if Nat.ltb (S p) q then pair_op U T C k (k + S p) (k + q) (i :: is) (j :: js) else 0))
    = delta i j * sum (length is) (fun p => sum (length is) (fun q =>
      if Nat.ltb p q then pair_op U T C (S k) (S k + p) (S k + q) is js else 0))).
  { rewrite sum_mul_l. apply sum_ext. intros p Hp. rewrite sum_mul_l. rewrite sum_S_l.
    change (Nat.ltb (S p) 0) with false. cbv iota. 
    transitivity (sum (length is) (fun q => delta i j * (if Nat.ltb p q then pair_op U T C (S k) (S k + p) (S k + q) is js else 0))); [|reflexivity].
    transitivity (sum (length is) (fun i0 => if Nat.ltb (S p) (S i0) then pair_op U T C k (k + S p) (k + S i0) (i :: is) (j :: js) else 0)); [ring|].
    apply sum_ext. intros q Hq. change (Nat.ltb (S p) (S q)) with (Nat.ltb p q).
    destruct (Nat.ltb p q); [|ring]. unfold pair_op. cbn [product_op].
    destruct (Nat.eqb_spec k (k + S p)); [lia|]. destruct (Nat.eqb_spec k (k + S q)); [lia|].
    destruct (Nat.ltb_spec (k + S p) k); [lia|]. cbn [andb]. f_equal.
    apply product_op_ext_in. intros m i' j' Hm. rewrite !Nat.add_succ_r. reflexivity. }
  rewrite E4. ring.
Qed.

End Thread.
