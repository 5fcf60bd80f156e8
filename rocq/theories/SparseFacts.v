(** Proofs about the sparse Hamiltonians *)
From Coq Require Import Bool List Arith ZArith Lia Ring.
From Verif Require Import Scalar ScalarFacts Tensor TensorFacts Spec SparseSpec HamModel SparseModel.
Import ListNotations.
Local Open Scope K_scope.

Section Facts.
Context {SC : Scalar}.
Add Ring Kring : k_ring.

Lemma offset_app p q is1 is2 : length is1 = length p ->
  offset (p ++ q) (is1 ++ is2) = (offset p is1 + nprod p * offset q is2)%nat.
Proof.
  revert is1. induction p as [|d p IH]; intros [|i is1] H; try discriminate; cbn [app offset nprod fold_right]; [lia|].
  fold (nprod p). rewrite IH by (cbn in H; lia). nia.
Qed.

Lemma delta_offset ds is js : in_range ds is -> in_range ds js -> delta (offset ds is) (offset ds js) = id_op is js.
Proof.
  intros H1. revert js. induction H1 as [|d i ds is Hi H1 IH]; intros js H2.
  - apply in_range_nil_inv in H2. subst js. reflexivity.
  - apply in_range_cons_inv in H2. destruct H2 as (j & js' & -> & Hj & H2). cbn [offset id_op].
    rewrite <- (IH js' H2). unfold delta.
    destruct (Nat.eqb_spec i j) as [->|Hne].
    + destruct (Nat.eqb_spec (offset ds is) (offset ds js')) as [->|Hne'].
      * rewrite Nat.eqb_refl. ring.
      * destruct (Nat.eqb_spec (j + d * offset ds is) (j + d * offset ds js')) as [E|]; [exfalso; apply Hne'; nia|ring].
    + destruct (Nat.eqb_spec (i + d * offset ds is) (j + d * offset ds js')) as [E|]; [|ring].
      exfalso. apply Hne.
      assert ((i + d * offset ds is) mod d = (j + d * offset ds js') mod d) by congruence.
      rewrite !(Nat.mul_comm d), !Nat.mod_add, !Nat.mod_small in H by lia. exact H.
Qed.

Lemma in_range_app p q is : in_range (p ++ q) is ->
  exists is1 is2, is = is1 ++ is2 /\ in_range p is1 /\ in_range q is2.
Proof. intros H. apply Forall2_app_inv_l in H. destruct H as (a & b & H1 & H2 & H3). exists a, b. auto. Qed.

Lemma in_range_length ds is : in_range ds is -> length is = length ds.
Proof. intros H. induction H; cbn; congruence. Qed.

Lemma site_op_app p p' O i j q q' : length p' = length p ->
  site_op (length p) O (p ++ i :: q) (p' ++ j :: q') = id_op p p' * (O i j * id_op q q').
Proof.
  revert p'. induction p as [|x p IH]; intros [|y p'] H; try discriminate; cbn [length app site_op id_op]; [ring|].
  rewrite IH by (cbn in H; lia). ring.
Qed.

Lemma pair_op_app ds d1 e p p' M i1 i2 j1 j2 q q' : length p' = length p -> length ds = length p ->
  pair_op (length p) (ds ++ d1 :: e) M (p ++ i1 :: i2 :: q) (p' ++ j1 :: j2 :: q') =
  id_op p p' * (M (i1 + d1 * i2)%nat (j1 + d1 * j2)%nat * id_op q q').
Proof.
  revert p' ds. induction p as [|x p IH]; intros [|y p'] [|d ds] H H'; try discriminate; cbn [length app pair_op id_op]; [ring|].
  rewrite IH by (cbn in H, H'; lia). ring.
Qed.

(** identity x M x identity *)
Lemma get_window Dr Dl M m a b c a' b' c' : dims M = [m; m] -> (a < Dl)%nat -> (a' < Dl)%nat -> (b < m)%nat -> (b' < m)%nat ->
  (c < Dr)%nat -> (c' < Dr)%nat ->
  get (kron (eye Dr) (kron M (eye Dl))) [a + Dl * (b + m * c); a' + Dl * (b' + m * c')]%nat =
  delta a a' * (get M [b; b'] * delta c c').
Proof.
  intros HM Ha Ha' Hb Hb' Hc Hc'.
  replace (a + Dl * (b + m * c))%nat with ((a + Dl * b) + (m * Dl) * c)%nat by nia.
  replace (a' + Dl * (b' + m * c'))%nat with ((a' + Dl * b') + (m * Dl) * c')%nat by nia.
  rewrite (get_kron (eye Dr) (kron M (eye Dl)) Dr Dr (m * Dl) (m * Dl)); try assumption; try reflexivity.
  2:{ apply dims_kron; [exact HM|reflexivity]. }
  2:{ nia. } 2:{ nia. }
  rewrite (get_kron M (eye Dl) m m Dl Dl) by (assumption || reflexivity).
  rewrite !get_eye by assumption. ring.
Qed.

Lemma is_matrix_window Dr Dl M m : dims M = [m; m] -> is_matrix (kron (eye Dr) (kron M (eye Dl))) (Dr * (m * Dl)) (Dr * (m * Dl)).
Proof.
  intros HM. split; [|apply wf_mk]. rewrite (dims_kron (eye Dr) (kron M (eye Dl)) Dr Dr (m * Dl) (m * Dl)); [reflexivity|reflexivity|].
  apply dims_kron; [exact HM|reflexivity].
Qed.

Lemma firstn_skipn_1 (ds : list nat) k : (k < length ds)%nat -> ds = firstn k ds ++ nth k ds 0%nat :: skipn (S k) ds.
Proof.
  revert ds. induction k as [|k IH]; intros [|d ds] H; cbn in H; try lia; [reflexivity|].
  cbn [firstn nth]. change (skipn (S (S k)) (d :: ds)) with (skipn (S k) ds). cbn [app]. f_equal. apply IH. lia.
Qed.

Lemma nprod_split ds k : (k < length ds)%nat -> nprod ds = (nprod (firstn k ds) * (nth k ds 0 * nprod (skipn (S k) ds)))%nat.
Proof. intros H. rewrite (firstn_skipn_1 ds k H) at 1. rewrite nprod_app. reflexivity. Qed.

Lemma nprod_split2 ds k : (S k < length ds)%nat ->
  nprod ds = (nprod (firstn k ds) * (nth k ds 0 * nth (S k) ds 0 * nprod (skipn (S (S k)) ds)))%nat.
Proof.
  intros H. rewrite (nprod_split ds k) by lia. f_equal. rewrite <- Nat.mul_assoc. f_equal.
  assert (E : nth (S k) ds 0%nat = nth 0 (skipn (S k) ds) 0%nat /\ skipn (S (S k)) ds = skipn 1 (skipn (S k) ds)).
  { clear. revert ds. induction k as [|k IH]; intros [|d ds]; try (split; reflexivity).
    change (skipn (S (S k)) (d :: ds)) with (skipn (S k) ds). change (skipn (S (S (S k))) (d :: ds)) with (skipn (S (S k)) ds).
    cbn [nth]. apply IH. }
  destruct E as (-> & ->). assert (L : (0 < length (skipn (S k) ds))%nat) by (rewrite skipn_length; lia).
  destruct (skipn (S k) ds) as [|e es]; [cbn in L; lia|]. reflexivity.
Qed.

(** A one-site matrix placed by two krons is that site operator. *)
Lemma window_site ds k M is js : (k < length ds)%nat -> dims M = [nth k ds 0; nth k ds 0]%nat ->
  in_range ds is -> in_range ds js ->
  get (kron (eye (Dright ds k)) (kron M (eye (Dleft ds k)))) [offset ds is; offset ds js] = site_op k (mat M) is js.
Proof.
  intros Hk HM Hi Hj. unfold Dright, Dleft.
  set (p := firstn k ds) in *. set (d := nth k ds 0%nat) in *. set (q := skipn (S k) ds) in *.
  assert (Lp : length p = k) by (apply firstn_length_le; lia).
  assert (E : ds = p ++ d :: q) by (apply firstn_skipn_1; exact Hk).
  clearbody p d q. subst ds.
  apply in_range_app in Hi. destruct Hi as (i1 & i2 & -> & Hi1 & Hi2).
  apply in_range_app in Hj. destruct Hj as (j1 & j2 & -> & Hj1 & Hj2).
  apply in_range_cons_inv in Hi2. destruct Hi2 as (i & i3 & -> & Hi & Hi3).
  apply in_range_cons_inv in Hj2. destruct Hj2 as (j & j3 & -> & Hj & Hj3).
  pose proof (in_range_length _ _ Hi1) as L1. pose proof (in_range_length _ _ Hj1) as L2.
  rewrite !offset_app by congruence. cbn [offset].
  rewrite (get_window _ _ M d) by (assumption || (apply offset_lt; assumption)).
  rewrite !delta_offset by assumption. rewrite <- Lp, <- L1. rewrite site_op_app by congruence. reflexivity.
Qed.

Lemma window_pair ds k M is js : (S k < length ds)%nat -> dims M = [nth k ds 0 * nth (S k) ds 0; nth k ds 0 * nth (S k) ds 0]%nat ->
  in_range ds is -> in_range ds js ->
  get (kron (eye (Dright ds (S k))) (kron M (eye (Dleft ds k)))) [offset ds is; offset ds js] = pair_op k ds (mat M) is js.
Proof.
  intros Hk HM Hi Hj. unfold Dright, Dleft.
  assert (E : ds = firstn k ds ++ nth k ds 0%nat :: nth (S k) ds 0%nat :: skipn (S (S k)) ds).
  { rewrite (firstn_skipn_1 ds k) at 1 by lia. f_equal. f_equal. clear -Hk. revert ds Hk. induction k as [|k IH]; intros [|d ds] Hk; cbn in Hk; try lia.
    - change (skipn 1 (d :: ds)) with ds. change (skipn 2 (d :: ds)) with (skipn 1 ds). destruct ds as [|e ds]; [cbn in Hk; lia|]. reflexivity.
    - change (skipn (S (S k)) (d :: ds)) with (skipn (S k) ds). change (skipn (S (S (S k))) (d :: ds)) with (skipn (S (S k)) ds).
      cbn [nth]. apply IH. lia. }
  set (p := firstn k ds) in *. set (d := nth k ds 0%nat) in *. set (e := nth (S k) ds 0%nat) in *. set (q := skipn (S (S k)) ds) in *.
  assert (Lp : length p = k) by (apply firstn_length_le; lia).
  clearbody p d e q. subst ds.
  apply in_range_app in Hi. destruct Hi as (i1 & i2 & -> & Hi1 & Hi2).
  apply in_range_app in Hj. destruct Hj as (j1 & j2 & -> & Hj1 & Hj2).
  apply in_range_cons_inv in Hi2. destruct Hi2 as (i & i3 & -> & Hi & Hi3).
  apply in_range_cons_inv in Hj2. destruct Hj2 as (j & j3 & -> & Hj & Hj3).
  apply in_range_cons_inv in Hi3. destruct Hi3 as (i' & i4 & -> & Hi' & Hi4).
  apply in_range_cons_inv in Hj3. destruct Hj3 as (j' & j4 & -> & Hj' & Hj4).
  pose proof (in_range_length _ _ Hi1) as L1. pose proof (in_range_length _ _ Hj1) as L2.
  rewrite !offset_app by congruence. cbn [offset].
  replace (i + d * (i' + e * offset q i4))%nat with ((i + d * i') + (d * e) * offset q i4)%nat by nia.
  replace (j + d * (j' + e * offset q j4))%nat with ((j + d * j') + (d * e) * offset q j4)%nat by nia.
  rewrite (get_window _ _ M (d * e)) by (assumption || (apply offset_lt; assumption) || nia).
  rewrite !delta_offset by assumption. rewrite <- Lp, <- L1. rewrite pair_op_app by congruence. reflexivity.
Qed.

Lemma site_op_0 k O is js : (forall i j, O i j = 0) -> site_op k O is js = 0.
Proof.
  intros H. revert is js. induction k as [|k IH]; intros [|i is] [|j js]; cbn; try reflexivity; [rewrite H; ring|rewrite IH; ring].
Qed.
Lemma pair_op_0 k ds O is js : (forall i j, O i j = 0) -> pair_op k ds O is js = 0.
Proof.
  intros H. revert ds is js. induction k as [|k IH]; intros ds is js.
  - destruct ds, is as [|i [|i' is]], js as [|j [|j' js]]; cbn; try reflexivity. rewrite H. ring.
  - destruct ds, is, js; cbn; try reflexivity. rewrite IH. ring.
Qed.
Lemma mat_empty i j : mat empty i j = 0.
Proof. reflexivity. Qed.

Lemma sadd_ok a b n : is_matrix a n n -> is_matrix b n n -> exists c, sadd a b = Ok c /\ is_matrix c n n /\
  forall i j, (i < n)%nat -> (j < n)%nat -> get c [i; j] = get a [i; j] + get b [i; j].
Proof.
  intros (A1 & A2) (B1 & B2). exists (tadd a b). unfold sadd. rewrite A1, B1.
  destruct (list_eq_dec Nat.eq_dec [n; n] [n; n]); [|contradiction]. split; [reflexivity|].
  split; [split; [exact A1|apply wf_tadd; congruence]|]. intros i j Hi Hj. apply get_tadd; try congruence.
  rewrite A1. apply in_range_2; assumption.
Qed.

(** Adding a list of terms *)
Lemma add_loop n s len (step : tensor -> nat -> result tensor) (v : nat -> nat -> nat -> K) X :
  is_matrix X n n ->
  (forall k Y, (s <= k < s + len)%nat -> is_matrix Y n n -> exists Z, step Y k = Ok Z /\ is_matrix Z n n /\
     forall i j, (i < n)%nat -> (j < n)%nat -> get Z [i; j] = get Y [i; j] + v k i j) ->
  exists Z, fold_left (fun r k => bind r (fun o => step o k)) (seq s len) (Ok X) = Ok Z /\ is_matrix Z n n /\
    forall i j, (i < n)%nat -> (j < n)%nat -> get Z [i; j] = get X [i; j] + sum len (fun k => v (s + k)%nat i j).
Proof.
  intros HX. revert s. revert X HX. induction len as [|len IH]; intros X HX s H; cbn [seq fold_left].
  - exists X. split; [reflexivity|]. split; [exact HX|]. intros. cbn [sum]. ring.
  - destruct (H s X ltac:(lia) HX) as (Y & E & HY & HgY). cbn [bind]. rewrite E.
    destruct (IH Y HY (S s)) as (Z & EZ & HZ & HgZ).
    { intros k W Hk HW. apply H; [lia|exact HW]. }
    exists Z. split; [exact EZ|]. split; [exact HZ|]. intros i j Hi Hj. rewrite HgZ, HgY by assumption.
    rewrite sum_S_l. rewrite Nat.add_0_r.
    transitivity (get X [i; j] + (v s i j + sum len (fun k => v (S s + k)%nat i j))); [ring|].
    f_equal. f_equal. apply sum_ext. intros k Hk. f_equal. lia.
Qed.

Lemma zeros_matrix n : is_matrix (zeros [n; n]) n n.
Proof. split; [reflexivity|apply wf_mk]. Qed.

(** *** The list version *)
Variable decomp : tensor -> result (tensor * tensor).


Lemma elem_ok l k : (k < length l)%nat -> elem l k = Ok (nth k l empty).
Proof.
  intros H. unfold elem. destruct (nth_error l k) eqn:E; [|apply nth_error_None in E; lia].
  f_equal. symmetry. apply nth_error_nth. exact E.
Qed.

Lemma matrix_not_empty t n : is_matrix t n n -> (0 < n)%nat -> is_empty t = false.
Proof. intros (H1 & H2) Hn. apply is_empty_wf; [exact H2|]. rewrite H1. cbn. nia. Qed.

Lemma guess_dims_ok ds H12 H1 : chain_lists ds H12 H1 -> guess_dims H12 H1 (length ds) = Ok ds.
Proof.
  intros (Hn & Hp & L1 & L12 & Hg & _).
  assert (G : forall k, (k < length ds)%nat -> guess_dim H12 H1 k = Ok (nth k ds 0%nat)).
  { intros k Hk. unfold guess_dim. rewrite elem_ok by lia. cbn [bind].
    destruct (Hg k Hk) as [HM|(-> & HM)].
    - rewrite (matrix_not_empty _ _ HM) by (apply Hp; exact Hk). cbn [negb]. destruct HM as (HM & _). unfold dim. rewrite HM. reflexivity.
    - pose proof (Hp k Hk).
      assert (Hk' : (k < length H12)%nat).
      { destruct (Nat.lt_ge_cases k (length H12)) as [|G]; [assumption|]. rewrite (nth_overflow H12 empty G) in HM.
        destruct HM as (HM & _). discriminate. }
      cbn [is_empty empty data negb]. rewrite elem_ok by lia. cbn [bind].
      rewrite (matrix_not_empty _ _ HM) by nia. cbn [negb]. destruct HM as (HM & _). unfold dim. rewrite HM. cbn [nth].
      rewrite Nat.sqrt_square. reflexivity. }
  unfold guess_dims.
  assert (X : forall n acc, (n <= length ds)%nat -> acc = firstn n ds ->
     fold_left (fun r k => bind r (fun d => bind (guess_dim H12 H1 k) (fun x => Ok (d ++ [x])))) (seq n (length ds - n)) (Ok acc) = Ok ds).
  { intros n acc Hn'. remember (length ds - n)%nat as m eqn:Em. revert n acc Hn' Em. induction m as [|m IH]; intros n acc Hn' Em Ha; cbn [seq fold_left].
    - subst acc. rewrite firstn_all2 by lia. reflexivity.
    - cbn [bind]. rewrite G by lia. cbn [bind]. apply IH; [lia|lia|]. subst acc.
      clear -Em. revert ds Em. induction n as [|n IHn]; intros [|d ds] Em; cbn in Em; try lia; [reflexivity|].
      cbn [nth firstn app]. f_equal. change (firstn (S n) ds) with (firstn (S n) ds). apply IHn. lia. }
  specialize (X 0%nat [] ltac:(lia) eq_refl). rewrite Nat.sub_0_r in X. exact X.
Qed.

Lemma pair_loop_ok ds H12 H1 X : chain_lists ds H12 H1 -> is_matrix X (nprod ds) (nprod ds) ->
  exists Z, fold_left (fun r k => bind r (fun output => bind (elem H12 (k - 1)) (fun H =>
          if negb (is_empty H) then sadd output (kron (eye (Dright ds k)) (kron H (eye (Dleft ds (k - 1)))))
          else Ok output)))
        (seq 1 (length ds - 1)) (Ok X) = Ok Z /\ is_matrix Z (nprod ds) (nprod ds) /\
    forall is js, in_range ds is -> in_range ds js -> get Z [offset ds is; offset ds js] =
      get X [offset ds is; offset ds js] + sum (length ds - 1) (fun k => pair_op k ds (mat (nth k H12 empty)) is js).
Proof.
  intros HC HX. pose proof HC as (Hn & Hp & L1 & L12 & Hg & Hm).
  destruct (add_loop (nprod ds) 1 (length ds - 1)
    (fun output k => bind (elem H12 (k - 1)) (fun H =>
          if negb (is_empty H) then sadd output (kron (eye (Dright ds k)) (kron H (eye (Dleft ds (k - 1)))))
          else Ok output))
    (fun k r c => pair_op (k - 1) ds (mat (nth (k - 1) H12 empty)) (unravel ds r) (unravel ds c)) X HX) as (Z & E & HZ & HgZ).
  - intros k Y Hk HY. rewrite elem_ok by lia. cbn [bind].
    destruct (Hm (k - 1)%nat ltac:(lia)) as [HM|HM].
    + assert (Hpos : (0 < nth (k - 1) ds 0 * nth (S (k - 1)) ds 0)%nat).
      { pose proof (Hp (k - 1)%nat ltac:(lia)). pose proof (Hp (S (k - 1))%nat ltac:(lia)). nia. }
      rewrite (matrix_not_empty _ _ HM Hpos). cbn [negb].
      assert (HW := is_matrix_window (Dright ds k) (Dleft ds (k - 1)) _ _ (proj1 HM)).
      assert (En : (Dright ds k * (nth (k - 1) ds 0 * nth (S (k - 1)) ds 0 * Dleft ds (k - 1)) = nprod ds)%nat).
      { unfold Dright, Dleft. rewrite (nprod_split2 ds (k - 1)) by lia. replace (S (S (k - 1))) with (S k) by lia. nia. }
      rewrite En in HW. destruct (sadd_ok _ _ _ HY HW) as (Z & EZ & HZ & Hg'). exists Z. split; [exact EZ|]. split; [exact HZ|].
      intros i j Hi Hj. rewrite Hg' by assumption. f_equal.
      rewrite <- (offset_unravel ds i Hi) at 1. rewrite <- (offset_unravel ds j Hj) at 1.
      replace (Dright ds k) with (Dright ds (S (k - 1))) by (f_equal; lia).
      apply window_pair; [lia|exact (proj1 HM)| |]; apply unravel_in_range; assumption.
    + rewrite HM. cbn [is_empty empty data negb]. exists Y. split; [reflexivity|]. split; [exact HY|].
      intros i j Hi Hj. rewrite pair_op_0 by apply mat_empty. ring.
  - exists Z. split; [exact E|]. split; [exact HZ|]. intros is js Hi Hj.
    rewrite HgZ by (apply offset_lt; assumption). f_equal. apply sum_ext. intros k Hk.
    rewrite !unravel_offset by assumption. replace (1 + k - 1)%nat with k by lia. reflexivity.
Qed.

Lemma site_loop_ok ds H12 H1 X : chain_lists ds H12 H1 -> is_matrix X (nprod ds) (nprod ds) ->
  exists Z, fold_left (fun r k => bind r (fun output => bind (elem H1 k) (fun H =>
      if negb (is_empty H) then sadd output (kron (eye (Dright ds k)) (kron H (eye (Dleft ds k))))
      else Ok output)))
    (seq 0 (length ds)) (Ok X) = Ok Z /\ is_matrix Z (nprod ds) (nprod ds) /\
    forall is js, in_range ds is -> in_range ds js -> get Z [offset ds is; offset ds js] =
      get X [offset ds is; offset ds js] + sum (length ds) (fun k => site_op k (mat (nth k H1 empty)) is js).
Proof.
  intros HC HX. pose proof HC as (Hn & Hp & L1 & L12 & Hg & Hm).
  destruct (add_loop (nprod ds) 0 (length ds)
    (fun output k => bind (elem H1 k) (fun H =>
      if negb (is_empty H) then sadd output (kron (eye (Dright ds k)) (kron H (eye (Dleft ds k))))
      else Ok output))
    (fun k r c => site_op k (mat (nth k H1 empty)) (unravel ds r) (unravel ds c)) X HX) as (Z & E & HZ & HgZ).
  - intros k Y Hk HY. rewrite elem_ok by lia. cbn [bind].
    destruct (Hg k ltac:(lia)) as [HM|(HM & _)].
    + rewrite (matrix_not_empty _ _ HM) by (apply Hp; lia). cbn [negb].
      assert (HW := is_matrix_window (Dright ds k) (Dleft ds k) _ _ (proj1 HM)).
      assert (En : (Dright ds k * (nth k ds 0 * Dleft ds k) = nprod ds)%nat).
      { unfold Dright, Dleft. rewrite (nprod_split ds k) by lia. nia. }
      rewrite En in HW. destruct (sadd_ok _ _ _ HY HW) as (Z & EZ & HZ & Hg'). exists Z. split; [exact EZ|]. split; [exact HZ|].
      intros i j Hi Hj. rewrite Hg' by assumption. f_equal.
      rewrite <- (offset_unravel ds i Hi) at 1. rewrite <- (offset_unravel ds j Hj) at 1.
      apply window_site; [lia|exact (proj1 HM)| |]; apply unravel_in_range; assumption.
    + rewrite HM. cbn [is_empty empty data negb]. exists Y. split; [reflexivity|]. split; [exact HY|].
      intros i j Hi Hj. rewrite site_op_0 by apply mat_empty. ring.
  - exists Z. split; [exact E|]. split; [exact HZ|]. intros is js Hi Hj.
    rewrite HgZ by (apply offset_lt; assumption). f_equal. apply sum_ext. intros k Hk.
    rewrite !unravel_offset by assumption. reflexivity.
Qed.

(** *** The wrap-around term *)
Lemma last_app1 {A} (l : list A) x d : last (l ++ [x]) d = x.
Proof. apply last_last. Qed.

Lemma wrap_op_app d M i m n j m' n' : wrap_op d M (i :: m ++ [n]) (j :: m' ++ [n']) =
  M (i + d * n)%nat (j + d * n')%nat * id_op m m'.
Proof. unfold wrap_op. rewrite !last_last, !removelast_last. reflexivity. Qed.

(** A decomposition of [H] up to a factor [z]: z * sum of products = H *)
Definition decomposes (z : K) (H O1 O2 : tensor) (d n : nat) : Prop :=
  dims O1 = [d; d; n] /\ dims O2 = [d; d; n] /\
  forall r1 r2 c1 c2, (r1 < d)%nat -> (r2 < d)%nat -> (c1 < d)%nat -> (c2 < d)%nat ->
    sum n (fun k => get O1 [r1; c1; k] * get O2 [r2; c2; k]) = z * get H [r1 + d * r2; c1 + d * c2]%nat.

Lemma list_ends (ds : list nat) d : (2 <= length ds)%nat -> nth 0 ds 0%nat = d -> nth (length ds - 1) ds 0%nat = d ->
  exists m, ds = d :: m ++ [d] /\ m = firstn (length ds - 2) (skipn 1 ds).
Proof.
  intros H H0 H1. destruct ds as [|x ds]; [cbn in H; lia|]. cbn [nth] in H0. subst x.
  destruct (@exists_last _ ds) as (m & y & ->); [intros ->; cbn in H; lia|].
  assert (y = d).
  { rewrite <- H1. change (d :: m ++ [y]) with ((d :: m) ++ [y]). rewrite app_length. cbn [length].
    rewrite app_nth2 by (cbn; lia). replace (S (length m) + 1 - 1 - length (d :: m))%nat with 0%nat by (cbn; lia). reflexivity. }
  subst y. exists m. split; [reflexivity|]. cbn [length]. rewrite app_length. cbn [length skipn].
  replace (S (length m + 1) - 2)%nat with (length m) by lia. rewrite firstn_app, firstn_all, Nat.sub_diag. cbn. rewrite app_nil_r. reflexivity.
Qed.

Lemma add_wrap_ok ds d m H O1 O2 n z X : ds = d :: m ++ [d] -> (0 < d)%nat ->
  decomp H = Ok (O1, O2) -> decomposes z H O1 O2 d n -> is_matrix X (nprod ds) (nprod ds) ->
  exists Z, add_wrap decomp H (eye (nprod m)) X = Ok Z /\ is_matrix Z (nprod ds) (nprod ds) /\
    forall is js, in_range ds is -> in_range ds js -> get Z [offset ds is; offset ds js] =
      get X [offset ds is; offset ds js] + z * wrap_op d (mat H) is js.
Proof.
  intros Eds Hd ED (HO1 & HO2 & HO) HX. unfold add_wrap. rewrite ED. cbn [bind]. unfold dim at 1. rewrite HO1. cbn [nth].
  assert (Hs : forall O i, dims O = [d; d; n] -> dims (slice O i) = [d; d]).
  { intros O i HOd. unfold slice, dim. rewrite HOd. reflexivity. }
  assert (Hgs : forall O i x y, dims O = [d; d; n] -> (x < d)%nat -> (y < d)%nat -> get (slice O i) [x; y] = get O [x; y; i]).
  { intros O i x y HOd Hx Hy. unfold slice, dim. rewrite HOd. cbn [nth]. rewrite get_mk by (apply in_range_2; assumption). reflexivity. }
  assert (En : nprod ds = (d * (nprod m * d))%nat).
  { rewrite Eds. cbn [nprod fold_right]. fold (nprod (m ++ [d])). rewrite nprod_app. cbn. lia. }
  assert (Hoff : forall is, in_range ds is -> exists i mm k, is = i :: mm ++ [k] /\ (i < d)%nat /\ in_range m mm /\ (k < d)%nat /\
     offset ds is = ((i + d * offset m mm) + (nprod m * d) * k)%nat).
  { intros is His. rewrite Eds in His. apply in_range_cons_inv in His. destruct His as (i & is' & -> & Hi & His).
    apply in_range_app in His. destruct His as (mm & l & -> & Hm & Hl). apply in_range_cons_inv in Hl.
    destruct Hl as (k & l' & -> & Hk & Hl). apply in_range_nil_inv in Hl. subst l'.
    exists i, mm, k. split; [reflexivity|]. split; [exact Hi|]. split; [exact Hm|]. split; [exact Hk|].
    rewrite Eds. cbn [offset]. rewrite offset_app by (apply in_range_length; exact Hm). cbn [offset]. nia. }
  destruct (add_loop (nprod ds) 0 n (fun output i => sadd output (kron (slice O2 i) (kron (eye (nprod m)) (slice O1 i))))
    (fun k r c => match unravel ds r, unravel ds c with
       | i :: is', j :: js' => get O1 [i; j; k] * get O2 [last is' 0; last js' 0; k]%nat * id_op (removelast is') (removelast js')
       | _, _ => 0 end) X HX) as (Z & E & HZ & HgZ).
  - intros k Y Hk HY.
    assert (HK : dims (kron (eye (nprod m)) (slice O1 k)) = [nprod m * d; nprod m * d]%nat) by (apply dims_kron; [reflexivity|apply Hs; exact HO1]).
    assert (HW : is_matrix (kron (slice O2 k) (kron (eye (nprod m)) (slice O1 k))) (nprod ds) (nprod ds)).
    { split; [|apply wf_mk]. rewrite En. apply dims_kron; [apply Hs; exact HO2|exact HK]. }
    destruct (sadd_ok _ _ _ HY HW) as (Z & EZ & HZ & Hg'). exists Z. split; [exact EZ|]. split; [exact HZ|].
    intros r c Hr Hc. rewrite Hg' by assumption. f_equal.
    pose proof (unravel_in_range ds r Hr) as Ir. pose proof (unravel_in_range ds c Hc) as Ic.
    rewrite <- (offset_unravel ds r Hr) at 1. rewrite <- (offset_unravel ds c Hc) at 1.
    destruct (Hoff _ Ir) as (i & mm & x & Ei & Hi & Hmm & Hx & ->).
    destruct (Hoff _ Ic) as (j & mm' & y & Ej & Hj & Hmm' & Hy & ->). rewrite Ei, Ej, !last_last, !removelast_last.
    rewrite (get_kron (slice O2 k) (kron (eye (nprod m)) (slice O1 k)) d d (nprod m * d) (nprod m * d));
      [|apply Hs; exact HO2|exact HK|exact Hx|exact Hy| |].
    2:{ pose proof (offset_lt m mm Hmm). nia. } 2:{ pose proof (offset_lt m mm' Hmm'). nia. }
    rewrite (get_kron (eye (nprod m)) (slice O1 k) (nprod m) (nprod m) d d);
      [|reflexivity|apply Hs; exact HO1|apply offset_lt; exact Hmm|apply offset_lt; exact Hmm'|exact Hi|exact Hj].
    rewrite get_eye by (apply offset_lt; assumption). rewrite delta_offset by assumption. rewrite !Hgs by assumption. ring.
  - exists Z. split; [exact E|]. split; [exact HZ|]. intros is js Hi Hj.
    rewrite HgZ by (apply offset_lt; assumption). f_equal. rewrite !unravel_offset by assumption.
    destruct (Hoff _ Hi) as (i & mm & x & -> & Hi' & Hmm & Hx & _).
    destruct (Hoff _ Hj) as (j & mm' & y & -> & Hj' & Hmm' & Hy & _).
    rewrite wrap_op_app, !last_last, !removelast_last. cbn [Nat.add].
    rewrite <- sum_mul_r. rewrite HO by assumption. unfold mat. ring.
Qed.

(** Everything together, list version *)
Lemma many_open_ok ds H12 H1 : chain_lists ds H12 H1 ->
  exists Z, sparse_1d_hamiltonian_many decomp H12 H1 false = Ok Z /\ is_matrix Z (nprod ds) (nprod ds) /\
    forall is js, in_range ds is -> in_range ds js -> get Z [offset ds is; offset ds js] =
      pair_chain ds (fun k => nth k H12 empty) (fun k => nth k H1 empty) is js.
Proof.
  intros HC. pose proof HC as (Hn & Hp & L1 & L12 & Hg & Hm). unfold sparse_1d_hamiltonian_many.
  replace (Nat.max (length H12) (length H1)) with (length ds) by lia.
  destruct (Nat.eqb_spec (length ds) 0); [lia|]. rewrite (guess_dims_ok ds H12 H1 HC). cbn [bind].
  destruct (pair_loop_ok ds H12 H1 _ HC (zeros_matrix (nprod ds))) as (Y & E & HY & HgY). rewrite E. cbn [bind andb].
  destruct (site_loop_ok ds H12 H1 _ HC HY) as (Z & EZ & HZ & HgZ). exists Z. split; [exact EZ|]. split; [exact HZ|].
  intros is js Hi Hj. rewrite HgZ, HgY by assumption. rewrite get_zeros by (apply in_range_2; apply offset_lt; assumption).
  unfold pair_chain. ring.
Qed.

Lemma many_periodic_ok ds H12 H1 d n z O1 O2 : chain_lists ds H12 H1 -> (2 <= length ds)%nat ->
  length H12 = length ds -> nth 0 ds 0%nat = d -> nth (length ds - 1) ds 0%nat = d ->
  decomp (nth (length ds - 1) H12 empty) = Ok (O1, O2) -> decomposes z (nth (length ds - 1) H12 empty) O1 O2 d n ->
  exists Z, sparse_1d_hamiltonian_many decomp H12 H1 true = Ok Z /\ is_matrix Z (nprod ds) (nprod ds) /\
    forall is js, in_range ds is -> in_range ds js -> get Z [offset ds is; offset ds js] =
      pair_chain ds (fun k => nth k H12 empty) (fun k => nth k H1 empty) is js +
      z * wrap_op d (mat (nth (length ds - 1) H12 empty)) is js.
Proof.
  intros HC H2 L12' D0 D1 ED HD. pose proof HC as (Hn & Hp & L1 & L12 & Hg & Hm). unfold sparse_1d_hamiltonian_many.
  replace (Nat.max (length H12) (length H1)) with (length ds) by lia.
  destruct (Nat.eqb_spec (length ds) 0); [lia|]. rewrite (guess_dims_ok ds H12 H1 HC). cbn [bind].
  destruct (pair_loop_ok ds H12 H1 _ HC (zeros_matrix (nprod ds))) as (Y & E & HY & HgY). rewrite E. cbn [bind].
  destruct (Nat.ltb_spec 1 (length ds)); [|lia]. cbn [andb]. rewrite elem_ok by lia. cbn [bind].
  destruct (list_ends ds d H2 D0 D1) as (m & Eds & Em).
  assert (Hd : (0 < d)%nat) by (rewrite <- D0; apply Hp; lia).
  assert (EA : (Dleft ds (length ds - 1) / nth 0 ds 0 = nprod m)%nat).
  { rewrite D0. unfold Dleft. rewrite Eds at 2. rewrite Eds. cbn [length]. rewrite app_length. cbn [length].
    replace (S (length m + 1) - 1)%nat with (S (length m)) by lia. cbn [firstn].
    rewrite firstn_app, firstn_all, Nat.sub_diag. cbn [firstn]. rewrite app_nil_r. cbn [nprod fold_right]. fold (nprod m).
    rewrite Nat.mul_comm. apply Nat.div_mul. lia. }
  rewrite EA. destruct (add_wrap_ok ds d m _ O1 O2 n z Y Eds Hd ED HD HY) as (W & EW & HW & HgW). rewrite EW. cbn [bind].
  destruct (site_loop_ok ds H12 H1 _ HC HW) as (Z & EZ & HZ & HgZ). exists Z. split; [exact EZ|]. split; [exact HZ|].
  intros is js Hi Hj. rewrite HgZ, HgW, HgY by assumption. rewrite get_zeros by (apply in_range_2; apply offset_lt; assumption).
  unfold pair_chain. ring.
Qed.

(** *** Translationally invariant version *)
Lemma nth_repeat_lt {A} (x y : A) n k : (k < n)%nat -> nth k (repeat x n) y = x.
Proof. revert k. induction n; intros [|k] H; cbn; auto; try lia. apply IHn. lia. Qed.

Lemma nprod_repeat d n : nprod (repeat d n) = (d ^ n)%nat.
Proof. induction n as [|n IH]; [reflexivity|]. cbn [repeat]. change (nprod (d :: repeat d n)) with (d * nprod (repeat d n))%nat. rewrite IH. reflexivity. Qed.

Lemma firstn_repeat {A} (x : A) n k : (k <= n)%nat -> firstn k (repeat x n) = repeat x k.
Proof. revert k. induction n; intros [|k] H; cbn; try reflexivity; try lia. f_equal. apply IHn. lia. Qed.
Lemma skipn_repeat {A} (x : A) n k : (k <= n)%nat -> skipn k (repeat x n) = repeat x (n - k).
Proof. revert k. induction n; intros [|k] H; cbn; try reflexivity; try lia. apply IHn. lia. Qed.

Lemma Dleft_repeat d n k : (k <= n)%nat -> Dleft (repeat d n) k = (d ^ k)%nat.
Proof. intros H. unfold Dleft. rewrite firstn_repeat by exact H. apply nprod_repeat. Qed.
Lemma Dright_repeat d n k : (k < n)%nat -> Dright (repeat d n) k = (d ^ (n - k - 1))%nat.
Proof. intros H. unfold Dright. rewrite skipn_repeat by lia. rewrite nprod_repeat. f_equal. lia. Qed.

Lemma ti_dim d H12 H1 : ti_data d H12 H1 -> Nat.max (dim H1 0) (Nat.sqrt (dim H12 0)) = d.
Proof.
  intros (Hd & A & B & C). unfold dim.
  destruct A as [(A & _)| ->], B as [(B & _)| ->]; rewrite ?A, ?B; cbn [dims empty nth]; rewrite ?Nat.sqrt_square;
    change (Nat.sqrt 0) with 0%nat; try lia.
  exfalso. apply C. auto.
Qed.

Lemma sparse_pos_false t n : matrix_or_empty t n -> sparse_length_pos t = false ->
  forall i j, (i < n)%nat -> (j < n)%nat -> mat t i j = 0.
Proof.
  intros [(A & B)| ->] H i j Hi Hj; [|reflexivity]. unfold sparse_length_pos in H.
  destruct (is_empty t) eqn:Ee.
  - unfold mat, get. unfold is_empty in Ee. destruct (data t); [|discriminate]. destruct (offset _ _); reflexivity.
  - cbn [negb andb] in H. destruct (is_zero_tensor t) eqn:Ez; [|discriminate].
    apply (proj1 (is_zero_tensor_spec t B) Ez). rewrite A. apply in_range_2; assumption.
Qed.

Lemma sparse_pos_true t n : matrix_or_empty t n -> sparse_length_pos t = true -> is_matrix t n n.
Proof. intros [A| ->] H; [exact A|discriminate]. Qed.

Lemma site_op_range0 ds k O is js : in_range ds is -> in_range ds js ->
  (forall i j, (i < nth k ds 0)%nat -> (j < nth k ds 0)%nat -> O i j = 0) -> site_op k O is js = 0.
Proof.
  intros H1 H2 H. revert ds is js H1 H2 H. induction k as [|k IH]; intros ds is js H1 H2 H; destruct H1 as [|d i ds is Hi H1];
    try (destruct js; reflexivity); apply in_range_cons_inv in H2; destruct H2 as (j & js' & -> & Hj & H2); cbn [site_op].
  - rewrite H by assumption. ring.
  - rewrite (IH ds is js' H1 H2) by exact H. ring.
Qed.

Lemma pair_op_range0 ds k O is js : in_range ds is -> in_range ds js ->
  (forall i j, (i < nth k ds 0 * nth (S k) ds 0)%nat -> (j < nth k ds 0 * nth (S k) ds 0)%nat -> O i j = 0) -> pair_op k ds O is js = 0.
Proof.
  intros H1 H2 H. revert ds is js H1 H2 H. induction k as [|k IH]; intros ds is js H1 H2 H; destruct H1 as [|d i ds is Hi H1];
    try reflexivity; apply in_range_cons_inv in H2; destruct H2 as (j & js' & -> & Hj & H2).
  - destruct H1 as [|e i' ds is Hi' H1]; [reflexivity|]. apply in_range_cons_inv in H2; destruct H2 as (j' & js'' & -> & Hj' & H2).
    cbn [pair_op]. cbn [nth] in H. rewrite H by nia. ring.
  - cbn [pair_op]. rewrite (IH ds is js' H1 H2) by exact H. ring.
Qed.

Lemma in_range_nth_lt ds is k : in_range ds is -> (k < length ds)%nat -> (nth k is 0 < nth k ds 0)%nat.
Proof. intros H. revert k. induction H as [|d i ds is Hi H IH]; intros [|k] Hk; cbn in *; try lia. apply IH. lia. Qed.

Lemma sum_rev n f : sum n (fun k => f (n - 1 - k)%nat) = sum n f.
Proof.
  induction n as [|n IH]; [reflexivity|]. rewrite sum_S_l. cbn [sum]. rewrite <- IH.
  replace (S n - 1 - 0)%nat with n by lia.
  transitivity (f n + sum n (fun k => f (n - 1 - k)%nat)); [|ring]. f_equal. apply sum_ext. intros k Hk. f_equal. lia.
Qed.

Lemma ti_pair_loop d N H12 X : (0 < d)%nat -> is_matrix H12 (d * d) (d * d) -> is_matrix X (d ^ N) (d ^ N) ->
  exists Z, fold_left (fun r k => bind r (fun output =>
                  sadd output (kron (eye (d ^ (k - 1))) (kron H12 (eye (d ^ (N - k - 1)))))))
                (seq 1 (N - 1)) (Ok X) = Ok Z /\ is_matrix Z (d ^ N) (d ^ N) /\
    let ds := repeat d N in
    forall is js, in_range ds is -> in_range ds js -> get Z [offset ds is; offset ds js] =
      get X [offset ds is; offset ds js] + sum (N - 1) (fun k => pair_op k ds (mat H12) is js).
Proof.
  intros Hd HM HX. cbv zeta. set (ds := repeat d N).
  assert (Lds : length ds = N) by apply repeat_length. assert (Pds : nprod ds = (d ^ N)%nat) by apply nprod_repeat.
  rewrite <- Pds in *.
  destruct (add_loop (nprod ds) 1 (N - 1)
    (fun output k => sadd output (kron (eye (d ^ (k - 1))) (kron H12 (eye (d ^ (N - k - 1))))))
    (fun k r c => pair_op (N - k - 1) ds (mat H12) (unravel ds r) (unravel ds c)) X HX) as (Z & E & HZ & HgZ).
  - intros k Y Hk HY.
    replace (d ^ (k - 1))%nat with (Dright ds (S (N - k - 1))) by (unfold ds; rewrite Dright_repeat by lia; f_equal; lia).
    replace (d ^ (N - k - 1))%nat with (Dleft ds (N - k - 1)) by (unfold ds; rewrite Dleft_repeat by lia; reflexivity).
    assert (Hn1 : nth (N - k - 1) ds 0%nat = d) by (apply nth_repeat_lt; lia).
    assert (Hn2 : nth (S (N - k - 1)) ds 0%nat = d) by (apply nth_repeat_lt; lia).
    assert (HW := is_matrix_window (Dright ds (S (N - k - 1))) (Dleft ds (N - k - 1)) _ _ (proj1 HM)).
    assert (En : (Dright ds (S (N - k - 1)) * (d * d * Dleft ds (N - k - 1)) = nprod ds)%nat).
    { unfold Dright, Dleft. rewrite (nprod_split2 ds (N - k - 1)) by lia. rewrite Hn1, Hn2. nia. }
    rewrite En in HW. destruct (sadd_ok _ _ _ HY HW) as (W & EW & HW' & Hg'). exists W. split; [exact EW|]. split; [exact HW'|].
    intros i j Hi Hj. rewrite Hg' by assumption. f_equal.
    rewrite <- (offset_unravel ds i Hi) at 1. rewrite <- (offset_unravel ds j Hj) at 1.
    apply window_pair; [lia|rewrite Hn1, Hn2; exact (proj1 HM)| |]; apply unravel_in_range; assumption.
  - exists Z. split; [exact E|]. split; [exact HZ|]. intros is js Hi Hj.
    rewrite HgZ by (apply offset_lt; assumption). f_equal. rewrite <- sum_rev. apply sum_ext. intros k Hk.
    rewrite !unravel_offset by assumption. f_equal. lia.
Qed.

Lemma ti_site_loop d N H1 X : (0 < d)%nat -> is_matrix H1 d d -> is_matrix X (d ^ N) (d ^ N) ->
  exists Z, fold_left (fun r k => bind r (fun output =>
        sadd output (kron (eye (d ^ k)) (kron H1 (eye (d ^ (N - k - 1)))))))
      (seq 0 N) (Ok X) = Ok Z /\ is_matrix Z (d ^ N) (d ^ N) /\
    let ds := repeat d N in
    forall is js, in_range ds is -> in_range ds js -> get Z [offset ds is; offset ds js] =
      get X [offset ds is; offset ds js] + sum N (fun k => site_op k (mat H1) is js).
Proof.
  intros Hd HM HX. cbv zeta. set (ds := repeat d N).
  assert (Lds : length ds = N) by apply repeat_length. assert (Pds : nprod ds = (d ^ N)%nat) by apply nprod_repeat.
  rewrite <- Pds in *.
  destruct (add_loop (nprod ds) 0 N
    (fun output k => sadd output (kron (eye (d ^ k)) (kron H1 (eye (d ^ (N - k - 1))))))
    (fun k r c => site_op (N - 1 - k) (mat H1) (unravel ds r) (unravel ds c)) X HX) as (Z & E & HZ & HgZ).
  - intros k Y Hk HY.
    replace (d ^ k)%nat with (Dright ds (N - 1 - k)) by (unfold ds; rewrite Dright_repeat by lia; f_equal; lia).
    replace (d ^ (N - k - 1))%nat with (Dleft ds (N - 1 - k)) by (unfold ds; rewrite Dleft_repeat by lia; f_equal; lia).
    assert (Hn1 : nth (N - 1 - k) ds 0%nat = d) by (apply nth_repeat_lt; lia).
    assert (HW := is_matrix_window (Dright ds (N - 1 - k)) (Dleft ds (N - 1 - k)) _ _ (proj1 HM)).
    assert (En : (Dright ds (N - 1 - k) * (d * Dleft ds (N - 1 - k)) = nprod ds)%nat).
    { unfold Dright, Dleft. rewrite (nprod_split ds (N - 1 - k)) by lia. rewrite Hn1. nia. }
    rewrite En in HW. destruct (sadd_ok _ _ _ HY HW) as (W & EW & HW' & Hg'). exists W. split; [exact EW|]. split; [exact HW'|].
    intros i j Hi Hj. rewrite Hg' by assumption. f_equal.
    rewrite <- (offset_unravel ds i Hi) at 1. rewrite <- (offset_unravel ds j Hj) at 1.
    apply window_site; [lia|rewrite Hn1; exact (proj1 HM)| |]; apply unravel_in_range; assumption.
  - exists Z. split; [exact E|]. split; [exact HZ|]. intros is js Hi Hj.
    rewrite HgZ by (apply offset_lt; assumption). f_equal. rewrite <- sum_rev. apply sum_ext. intros k Hk.
    rewrite !unravel_offset by assumption. f_equal. lia.
Qed.

(** [z] is zero when there is no wrap-around term. *)
Lemma ti_ok d H12 H1 N periodic z : ti_data d H12 H1 ->
  (periodic = true -> (1 < N)%nat -> sparse_length_pos H12 = true ->
   exists n O1 O2, decomp H12 = Ok (O1, O2) /\ decomposes z H12 O1 O2 d n) ->
  exists Z, pair_hamiltonian decomp H12 H1 N periodic = Ok Z /\ is_matrix Z (d ^ N) (d ^ N) /\
    let ds := repeat d N in
    forall is js, in_range ds is -> in_range ds js -> get Z [offset ds is; offset ds js] =
      pair_chain ds (fun _ => H12) (fun _ => H1) is js +
      (if periodic && Nat.ltb 1 N then z * wrap_op d (mat H12) is js else 0).
Proof.
  intros HT HD. pose proof HT as (Hd & HM & HM1 & Hne). cbv zeta. set (ds := repeat d N).
  assert (Lds : length ds = N) by apply repeat_length. assert (Pds : nprod ds = (d ^ N)%nat) by apply nprod_repeat.
  assert (Ee : is_empty H12 && is_empty H1 = false).
  { destruct HM as [HM| ->]; [rewrite (matrix_not_empty _ _ HM) by nia; reflexivity|].
    destruct HM1 as [HM1| ->]; [rewrite (matrix_not_empty _ _ HM1) by nia; apply andb_false_r|]. exfalso; auto. }
  unfold pair_hamiltonian. rewrite Ee. rewrite (ti_dim d H12 H1 HT).
  assert (A : exists Y, (if sparse_length_pos H12 then
          bind (fold_left (fun r k => bind r (fun output =>
                  sadd output (kron (eye (d ^ (k - 1))) (kron H12 (eye (d ^ (N - k - 1)))))))
                (seq 1 (N - 1)) (Ok (zeros [d ^ N; d ^ N]%nat))) (fun output =>
          if periodic && Nat.ltb 1 N then add_wrap decomp H12 (eye (d ^ (N - 2))) output else Ok output)
        else Ok (zeros [d ^ N; d ^ N]%nat)) = Ok Y /\ is_matrix Y (d ^ N) (d ^ N) /\
      forall is js, in_range ds is -> in_range ds js -> get Y [offset ds is; offset ds js] =
        sum (N - 1) (fun k => pair_op k ds (mat H12) is js) + (if periodic && Nat.ltb 1 N then z * wrap_op d (mat H12) is js else 0)).
  { destruct (sparse_length_pos H12) eqn:El.
    - pose proof (sparse_pos_true _ _ HM El) as HMm.
      destruct (ti_pair_loop d N H12 _ Hd HMm (zeros_matrix (d ^ N))) as (Y & E & HY & HgY). cbv zeta in HgY. fold ds in HgY.
      rewrite E. cbn [bind]. destruct (periodic && Nat.ltb 1 N) eqn:Ep.
      + apply andb_prop in Ep. destruct Ep as (-> & Ep). apply Nat.ltb_lt in Ep.
        destruct (HD eq_refl Ep eq_refl) as (n & O1 & O2 & ED & HD').
        assert (Eds : ds = d :: repeat d (N - 2) ++ [d]).
        { unfold ds. replace N with (S (N - 2 + 1)) at 1 by lia. cbn [repeat]. f_equal.
          replace [d] with (repeat d 1) by reflexivity. rewrite <- repeat_app. f_equal. }
        rewrite <- (nprod_repeat d (N - 2)). rewrite <- Pds in HY.
        destruct (add_wrap_ok ds d _ H12 O1 O2 n z Y Eds Hd ED HD' HY) as (W & EW & HW & HgW). rewrite Pds in HW.
        exists W. split; [exact EW|]. split; [exact HW|]. intros is js Hi Hj. rewrite HgW, HgY by assumption.
        rewrite get_zeros by (rewrite <- Pds; apply in_range_2; apply offset_lt; assumption). ring.
      + exists Y. split; [reflexivity|]. split; [exact HY|]. intros is js Hi Hj. rewrite HgY by assumption.
        rewrite get_zeros by (rewrite <- Pds; apply in_range_2; apply offset_lt; assumption). ring.
    - exists (zeros [d ^ N; d ^ N]%nat). split; [reflexivity|]. split; [apply zeros_matrix|]. intros is js Hi Hj.
      rewrite get_zeros by (rewrite <- Pds; apply in_range_2; apply offset_lt; assumption).
      pose proof (sparse_pos_false _ _ HM El) as Hz.
      rewrite sum_zero. 2:{ intros k Hk. apply (pair_op_range0 ds); try assumption. unfold ds. rewrite !nth_repeat_lt by lia. exact Hz. }
      destruct (periodic && Nat.ltb 1 N) eqn:Ep; [|ring]. apply andb_prop in Ep. destruct Ep as (_ & Ep). apply Nat.ltb_lt in Ep.
      unfold wrap_op. destruct is as [|i is]; [ring|]. destruct js as [|j js]; [ring|].
      assert (Lst : forall x l, in_range ds (x :: l) -> (x + d * last l 0 < d * d)%nat).
      { intros x l H. assert (Hx : (x < d)%nat).
        { pose proof (in_range_nth_lt ds (x :: l) 0 H ltac:(lia)) as Hx. unfold ds in Hx. rewrite nth_repeat_lt in Hx by lia. exact Hx. }
        assert (Hl : (last l 0 < d)%nat).
        { pose proof (in_range_length _ _ H) as HL. cbn in HL.
          pose proof (in_range_nth_lt ds (x :: l) (length l) H ltac:(lia)) as Hl. unfold ds in Hl. rewrite nth_repeat_lt in Hl by lia.
          assert (Hnn : (0 < length l)%nat) by lia. destruct (@exists_last _ l) as (l' & y & ->); [intros ->; cbn in Hnn; lia|].
          rewrite last_last. rewrite app_length in Hl. cbn [length] in Hl. replace (length l' + 1)%nat with (S (length l')) in Hl by lia.
          cbn [nth] in Hl. rewrite app_nth2 in Hl by lia. rewrite Nat.sub_diag in Hl. exact Hl. }
        nia. }
      rewrite Hz by (apply Lst; assumption). ring. }
  destruct A as (Y & EY & HY & HgY). cbv zeta. rewrite EY. cbn [bind].
  destruct (sparse_length_pos H1) eqn:El.
  - destruct (ti_site_loop d N H1 _ Hd (sparse_pos_true _ _ HM1 El) HY) as (Z & EZ & HZ & HgZ). cbv zeta in HgZ. fold ds in HgZ.
    exists Z. split; [exact EZ|]. split; [exact HZ|]. intros is js Hi Hj. rewrite HgZ, HgY by assumption. unfold pair_chain. rewrite Lds. ring.
  - exists Y. split; [reflexivity|]. split; [exact HY|]. intros is js Hi Hj. rewrite HgY by assumption. unfold pair_chain. rewrite Lds.
    rewrite (sum_zero N). 2:{ intros k Hk. apply (site_op_range0 ds); try assumption. unfold ds. rewrite !nth_repeat_lt by lia.
      apply (sparse_pos_false _ _ HM1 El). }
    ring.
Qed.

End Facts.
