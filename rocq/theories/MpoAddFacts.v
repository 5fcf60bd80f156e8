(** Correctness of the functions which add terms to an MPO *)
From Coq Require Import Bool List Arith ZArith Lia Ring.
From Verif Require Import Scalar ScalarFacts Tensor TensorFacts Spec MpsModel MpsFacts EnvFacts
  ExpectedFacts MpoSpec MpoModel MpoFacts MpoThread.
Import ListNotations.
Local Open Scope K_scope.

Section Add.
Context {SC : Scalar}.
Add Ring Kring : k_ring.

Lemma Ok_inj {A} (x y : A) : Ok x = Ok y -> x = y.
Proof. intros H. injection H as ->. reflexivity. Qed.

Lemma get_set_block P H x y a d e c a' i j c' : dims P = [a; d; e; c] ->
  (a' < a)%nat -> (i < d)%nat -> (j < e)%nat -> (c' < c)%nat ->
  get (set_block P x y H) [a'; i; j; c'] =
  if Nat.eqb a' x && Nat.eqb c' y then get H [i; j] else get P [a'; i; j; c'].
Proof.
  intros HP Ha Hi Hj Hc. unfold set_block. rewrite HP. rewrite get_mk by (apply in_range_4; assumption).
  reflexivity.
Qed.

Lemma get_add_block P H x y a d e c a' i j c' : dims P = [a; d; e; c] ->
  (a' < a)%nat -> (i < d)%nat -> (j < e)%nat -> (c' < c)%nat ->
  get (add_block P x y H) [a'; i; j; c'] =
  if Nat.eqb a' x && Nat.eqb c' y then get P [a'; i; j; c'] + get H [i; j] else get P [a'; i; j; c'].
Proof.
  intros HP Ha Hi Hj Hc. unfold add_block. rewrite HP. rewrite get_mk by (apply in_range_4; assumption).
  reflexivity.
Qed.

Lemma get_change_dim0 P m a d e c a' i j c' : dims P = [a; d; e; c] ->
  (a' < m)%nat -> (i < d)%nat -> (j < e)%nat -> (c' < c)%nat ->
  get (change_dimension P 0 m) [a'; i; j; c'] = if Nat.ltb a' a then get P [a'; i; j; c'] else 0.
Proof.
  intros HP Ha Hi Hj Hc. unfold change_dimension, dim. rewrite HP. cbn [replace_nth nth].
  rewrite get_mk by (apply in_range_4; assumption). reflexivity.
Qed.

Lemma get_change_dim3 P m a d e c a' i j c' : dims P = [a; d; e; c] ->
  (a' < a)%nat -> (i < d)%nat -> (j < e)%nat -> (c' < m)%nat ->
  get (change_dimension P 3 m) [a'; i; j; c'] = if Nat.ltb c' c then get P [a'; i; j; c'] else 0.
Proof.
  intros HP Ha Hi Hj Hc. unfold change_dimension, dim. rewrite HP. cbn [replace_nth nth].
  rewrite get_mk by (apply in_range_4; assumption). reflexivity.
Qed.

Lemma dims_set_block P x y H : dims (set_block P x y H) = dims P. Proof. reflexivity. Qed.
Lemma dims_add_block P x y H : dims (add_block P x y H) = dims P. Proof. reflexivity. Qed.
Lemma dims_change0 P m a d e c : dims P = [a; d; e; c] -> dims (change_dimension P 0 m) = [m; d; e; c].
Proof. intros HP. unfold change_dimension. rewrite HP. reflexivity. Qed.
Lemma dims_change3 P m a d e c : dims P = [a; d; e; c] -> dims (change_dimension P 3 m) = [a; d; e; m].
Proof. intros HP. unfold change_dimension. rewrite HP. reflexivity. Qed.
Lemma wf_set_block P x y H : wf (set_block P x y H). Proof. apply wf_mk. Qed.
Lemma wf_add_block P x y H : wf (add_block P x y H). Proof. apply wf_mk. Qed.
Lemma wf_change P x m : wf (change_dimension P x m). Proof. apply wf_mk. Qed.

Lemma site_map_seq f n k : (k < n)%nat -> site (map f (seq 0 n)) k = f k.
Proof. intros H. unfold site. apply nth_map_seq. exact H. Qed.

Lemma nth_pos ds k : Forall (fun d => (0 < d)%nat) ds -> (k < length ds)%nat -> (0 < nth k ds 0%nat)%nat.
Proof. intros H Hk. rewrite Forall_forall in H. apply H. apply nth_In. exact Hk. Qed.

Definition fresh_b (n k : nat) : nat := if Nat.eqb k 0 || Nat.eqb k n then 1%nat else 2%nat.

Lemma clear_site_dims ds k : (2 <= length ds)%nat -> (k < length ds)%nat ->
  dims (clear_site (length ds) k (nth k ds 0%nat)) =
  [fresh_b (length ds) k; nth k ds 0%nat; nth k ds 0%nat; fresh_b (length ds) (S k)].
Proof.
  intros Hn Hk. unfold clear_site, fresh_b.
  destruct (Nat.eqb_spec k 0) as [->|H0].
  - cbn [orb]. destruct (Nat.eqb_spec 1 (length ds)); [lia|]. reflexivity.
  - cbn [orb]. destruct (Nat.eqb_spec k (length ds)); [lia|].
    change (Nat.eqb (S k) 0) with false. cbn [orb].
    destruct (Nat.ltb_spec (k + 1) (length ds)), (Nat.eqb_spec (S k) (length ds)); try lia; reflexivity.
Qed.

Lemma clear_site_get ds k a i j c : (2 <= length ds)%nat -> (k < length ds)%nat ->
  (a < fresh_b (length ds) k)%nat -> (c < fresh_b (length ds) (S k))%nat ->
  (i < nth k ds 0%nat)%nat -> (j < nth k ds 0%nat)%nat ->
  get (clear_site (length ds) k (nth k ds 0%nat)) [a; i; j; c] =
  (if Nat.eqb (S k) (length ds) then delta a 1 else delta a c) * delta i j.
Proof.
  intros Hn Hk Ha Hc Hi Hj. pose proof (clear_site_dims ds k Hn Hk) as HD.
  unfold fresh_b in Ha, Hc. unfold clear_site.
  destruct (Nat.eqb_spec k 0) as [->|H0].
  - cbn [orb] in Ha. change (Nat.eqb 1 0) with false in Hc. cbn [orb] in Hc.
    destruct (Nat.eqb_spec 1 (length ds)); [lia|].
    rewrite (get_set_block _ _ _ _ 1 (nth 0 ds 0%nat) (nth 0 ds 0%nat) 2) by (reflexivity || assumption).
    rewrite get_eye by assumption. rewrite get_zeros by (apply in_range_4; assumption).
    replace a with 0%nat by lia.
    destruct c as [|[|]]; [| |lia]; cbn; unfold delta; cbn; ring.
  - cbn [orb] in Ha. change (Nat.eqb (S k) 0) with false in Hc. cbn [orb] in Hc.
    destruct (Nat.eqb_spec k (length ds)); [lia|].
    destruct (Nat.ltb_spec (k + 1) (length ds)), (Nat.eqb_spec (S k) (length ds)); try lia.
    + do 2 (rewrite (get_set_block _ _ _ _ 2 (nth k ds 0%nat) (nth k ds 0%nat) 2) by (reflexivity || assumption)).
      rewrite get_eye by assumption. rewrite get_zeros by (apply in_range_4; assumption).
      destruct a as [|[|]]; [| |lia]; (destruct c as [|[|]]; [| |lia]); cbn; unfold delta; cbn; ring.
    + rewrite (get_set_block _ _ _ _ 2 (nth k ds 0%nat) (nth k ds 0%nat) 1) by (reflexivity || assumption).
      rewrite get_eye by assumption. rewrite get_zeros by (apply in_range_4; assumption).
      replace c with 0%nat by lia.
      destruct a as [|[|]]; [| |lia]; cbn; unfold delta; cbn; ring.
Qed.

Definition fresh (ds : list nat) : mpo :=
  map (fun i => clear_site (length ds) i (nth i ds 0%nat)) (seq 0 (length ds)).

Lemma fresh_hform ds : (2 <= length ds)%nat -> Forall (fun d => (0 < d)%nat) ds ->
  hform ds (fresh_b (length ds)) (fresh ds).
Proof.
  intros Hn Hp.
  assert (Hs : forall k, (k < length ds)%nat -> site (fresh ds) k = clear_site (length ds) k (nth k ds 0%nat)).
  { intros k Hk. unfold fresh. rewrite site_map_seq by exact Hk. reflexivity. }
  constructor.
  - unfold fresh. rewrite map_length, seq_length. reflexivity.
  - exact Hn.
  - intros k Hk. apply nth_pos; assumption.
  - reflexivity.
  - unfold fresh_b. rewrite Nat.eqb_refl, orb_true_r. reflexivity.
  - intros k Hk. unfold fresh_b. destruct (Nat.eqb_spec k 0); [lia|].
    destruct (Nat.eqb_spec k (length ds)); [lia|]. cbn. lia.
  - intros k Hk. rewrite Hs by exact Hk. apply clear_site_dims; assumption.
  - intros k Hk. rewrite Hs by exact Hk. unfold clear_site.
    destruct (Nat.eqb k 0); [apply wf_set_block|]. destruct (Nat.ltb (k + 1) (length ds)); apply wf_set_block.
  - intros k a i j Hk Ha Hi Hj. rewrite Hs by lia. rewrite clear_site_get; try assumption; try lia.
    + destruct (Nat.eqb_spec (S k) (length ds)); [lia|reflexivity].
    + unfold fresh_b. destruct (_ || _); lia.
  - intros k c i j Hk Hc Hi Hj. rewrite Hs by lia. rewrite clear_site_get; try assumption; try lia.
    + unfold fin. unfold fresh_b in Hc. change (Nat.eqb (S k) 0) with false in Hc. cbn [orb] in Hc.
      destruct (Nat.eqb_spec (S k) (length ds)).
      * replace c with 0%nat by lia. rewrite !delta_refl. reflexivity.
      * rewrite delta_sym. reflexivity.
    + unfold fresh_b. destruct (Nat.eqb_spec k 0); [lia|]. destruct (Nat.eqb_spec k (length ds)); [lia|]. cbn. lia.
Qed.

Lemma fresh_suffix ds k is js : (2 <= length ds)%nat -> Forall (fun d => (0 < d)%nat) ds ->
  (k < length ds)%nat -> in_range (skipn k ds) is -> in_range (skipn k ds) js ->
  mchain (skipn k (fresh ds)) is js 0 0 = 0.
Proof.
  intros Hn Hp Hk. pose proof (fresh_hform ds Hn Hp) as HF.
  remember (length ds - k)%nat as m eqn:E. revert k is js Hk E.
  induction m as [|m IH]; intros k is js Hk E His Hjs; [lia|].
  rewrite skipn_nth in His, Hjs by exact Hk.
  apply in_range_cons_inv in His. destruct His as (i & is' & -> & Hi & His).
  apply in_range_cons_inv in Hjs. destruct Hjs as (j & js' & -> & Hj & Hjs).
  rewrite (mchain_step _ _ _ HF) by exact Hk.
  assert (Hb : (0 < fresh_b (length ds) k)%nat) by (unfold fresh_b; destruct (_ || _); lia).
  transitivity (sum (fresh_b (length ds) (S k)) (fun c =>
     ((if Nat.eqb (S k) (length ds) then 0 else delta c 0) * (delta i j * mchain (skipn (S k) (fresh ds)) is' js' c 0)))).
  { apply sum_ext. intros c Hc. unfold fresh at 1. rewrite site_map_seq by exact Hk.
    rewrite clear_site_get by assumption. rewrite (delta_sym 0 c).
    destruct (Nat.eqb (S k) (length ds)); [rewrite (delta_neq 0 1) by lia|]; ring. }
  destruct (Nat.eqb_spec (S k) (length ds)) as [En|En].
  - apply sum_zero. intros c Hc. ring.
  - rewrite sum_delta_l.
    + rewrite IH; [ring|lia|lia|assumption|assumption].
    + unfold fresh_b. destruct (_ || _); lia.
Qed.

Lemma fresh_zero ds is js : (2 <= length ds)%nat -> Forall (fun d => (0 < d)%nat) ds ->
  in_range ds is -> in_range ds js -> opelem (fresh ds) is js = 0.
Proof.
  intros Hn Hp His Hjs. rewrite (opelem_hform _ _ _ (fresh_hform ds Hn Hp)).
  apply (fresh_suffix ds 0); try assumption. lia.
Qed.

Lemma new_mpo_fresh ds O : new_mpo ds = Ok O -> (2 <= length ds)%nat /\ O = fresh ds.
Proof.
  unfold new_mpo. destruct (Nat.ltb_spec (length ds) 2); [discriminate|]. intros [= <-].
  split; [lia|reflexivity].
Qed.

(** *** helpers *)
Lemma is_square_spec H : is_square H = true -> exists d, dims H = [d; d].
Proof.
  unfold is_square, rank, dim. intros E. apply andb_true_iff in E. destruct E as (E1 & E2).
  apply Nat.eqb_eq in E1, E2. destruct (dims H) as [|x [|y [|]]]; cbn in *; try lia. subst. eauto.
Qed.

Lemma hform_dim1 ds b O k : hform ds b O -> (k < length ds)%nat -> dim (site O k) 1 = nth k ds 0%nat.
Proof. intros HF Hk. unfold dim. rewrite (hf_dims _ _ _ HF) by exact Hk. reflexivity. Qed.

Lemma thread_id_nodims ds b O O' D : hform ds b O -> length O' = length ds ->
  (forall k, (k < length ds)%nat -> dims (site O' k) = dims (site O k) /\ wf (site O' k)) ->
  (forall k a c i j, (k < length ds)%nat -> (a < b k)%nat -> (c < b (S k))%nat ->
     (i < nth k ds 0%nat)%nat -> (j < nth k ds 0%nat)%nat ->
     get (site O' k) [a; i; j; c] =
     get (site O k) [a; i; j; c] + delta a 0 * delta c (fin (length ds) k) * D k i j) ->
  thread ds b O O' 0 0 (fun _ _ _ => 0) (fun _ _ _ => 0) (fun _ _ _ => 0) D.
Proof.
  intros HF Hl Hd Hg.
  assert (Hnb : forall k, nb 0 0 k = false).
  { intros k. unfold nb. destruct (Nat.ltb_spec k 0); [lia|]. apply andb_false_r. }
  constructor; try (intros; rewrite ?Hnb in *; congruence); try assumption.
  - lia.
  - intros k Hk. rewrite !Hnb, !Nat.add_0_r. destruct (Hd k Hk) as (-> & _). apply (hf_dims _ _ _ HF). exact Hk.
  - intros k Hk. apply (Hd k Hk).
Qed.

Lemma pair_op_zero k p q is js T C : (k <= p < k + length is)%nat -> length js = length is ->
  pair_op (fun _ _ _ => 0) T C k p q is js = 0.
Proof.
  intros Hp Hl. unfold pair_op. apply (product_op_zero _ _ _ _ p); try assumption.
  intros i j. rewrite Nat.eqb_refl. reflexivity.
Qed.

Lemma Nw_local D is js : length js = length is ->
  Nw (fun _ _ _ => 0) (fun _ _ _ => 0) (fun _ _ _ => 0) D 0 is js =
  sum (length is) (fun p => site_op p (D p) is js).
Proof.
  intros Hl. rewrite Nw_sum by exact Hl.
  rewrite (sum_zero (length is) (fun p => sum _ _)).
  - replace (sum _ _ + 0) with (sum (length is) (fun p => product_op 0 (fun m => if Nat.eqb m (0 + p) then D m else delta) is js)) by ring.
    apply sum_ext. intros p Hp. cbn [Nat.add].
    rewrite <- (product_op_site 0) by assumption.
    apply product_op_ext_in. intros k i j Hk. cbn [Nat.add]. destruct (Nat.eqb_spec k p) as [->|]; reflexivity.
  - intros p Hp. apply sum_zero. intros q Hq. destruct (Nat.ltb p q); [|reflexivity].
    apply pair_op_zero; [lia|exact Hl].
Qed.

(** *** add_local_term *)
Lemma site_replace_nth i x (O : mpo) k : (i < length O)%nat ->
  site (replace_nth i x O) k = if Nat.eqb k i then x else site O k.
Proof.
  intros Hi. unfold site. destruct (Nat.eqb_spec k i) as [->|Hne].
  - apply nth_replace_nth_eq. exact Hi.
  - apply nth_replace_nth_neq. exact Hne.
Qed.

Lemma add_local_thread ds b O H i O' : hform ds b O -> add_local_term O H i = Ok O' ->
  (0 <= i < Z.of_nat (length ds))%Z /\
  dims H = [nth (Z.to_nat i) ds 0%nat; nth (Z.to_nat i) ds 0%nat] /\
  thread ds b O O' 0 0 (fun _ _ _ => 0) (fun _ _ _ => 0) (fun _ _ _ => 0)
    (fun k => if Nat.eqb k (Z.to_nat i) then mat H else fun _ _ => 0).
Proof.
  intros HF. unfold add_local_term. rewrite (hf_len _ _ _ HF).
  destruct (Z.ltb_spec i 0); [discriminate|]. destruct (Z.leb_spec (Z.of_nat (length ds)) i); [discriminate|].
  cbn [orb]. destruct (is_square H) eqn:Es; [|discriminate]. cbn [negb].
  destruct (is_square_spec H Es) as (d & Hd).
  cbv zeta. set (k0 := Z.to_nat i). assert (Hk0 : (k0 < length ds)%nat) by (unfold k0; lia).
  assert (HdH : dim H 0 = d) by (unfold dim; rewrite Hd; reflexivity).
  rewrite (hform_dim1 _ _ _ _ HF Hk0), HdH.
  destruct (Nat.eqb_spec (nth k0 ds 0%nat) d) as [E|]; [|discriminate]. cbn [negb].
  intros EQ. apply Ok_inj in EQ. subst O'. split; [lia|]. split; [rewrite Hd, E; reflexivity|].
  pose proof (hf_dims _ _ _ HF k0 Hk0) as HD.
  pose proof (hf_b _ _ _ HF) as Hb. pose proof (hf_b0 _ _ _ HF). pose proof (hf_bn _ _ _ HF) as Hbn.
  pose proof (hf_n _ _ _ HF).
  match goal with |- context [replace_nth k0 ?P O] => set (Pi := P) end.
  assert (EPi : Pi = add_block (site O k0) 0 (fin (length ds) k0) H).
  { unfold Pi, dim. rewrite HD. cbn [nth]. unfold fin.
    destruct (Nat.eqb_spec (S k0) (length ds)) as [En|En].
    - rewrite En, Hbn. destruct (Nat.eqb_spec (b k0) 1); [|reflexivity].
      pose proof (Hb k0). assert (k0 = 0)%nat by lia. lia.
    - destruct (Nat.eqb (b k0) 1); [reflexivity|].
      destruct (Nat.eqb_spec (b (S k0)) 1); [|reflexivity]. pose proof (Hb (S k0)). lia. }
  rewrite EPi. apply (thread_id_nodims ds b O); [exact HF|rewrite length_replace_nth; apply (hf_len _ _ _ HF)| |].
  - intros k Hk. rewrite site_replace_nth by (rewrite (hf_len _ _ _ HF); exact Hk0).
    destruct (Nat.eqb_spec k k0) as [->|]; [split; [reflexivity|apply wf_add_block]|].
    split; [reflexivity|apply (hf_wf _ _ _ HF); exact Hk].
  - intros k a c x y Hk Ha Hc Hx Hy. rewrite site_replace_nth by (rewrite (hf_len _ _ _ HF); exact Hk0).
    destruct (Nat.eqb_spec k k0) as [->|]; [|ring].
    rewrite (get_add_block _ _ _ _ _ _ _ _ _ _ _ _ HD) by assumption.
    destruct (Nat.eqb_spec a 0) as [->|Ha0]; [|rewrite (delta_neq a 0) by exact Ha0; cbn; ring].
    destruct (Nat.eqb_spec c (fin (length ds) k0)) as [->|Hc0].
    + cbn [andb]. rewrite !delta_refl. unfold mat. ring.
    + rewrite (delta_neq c) by exact Hc0. cbn. ring.
Qed.

Lemma sum_if_single n k (f : nat -> K) : (k < n)%nat -> sum n (fun p => if Nat.eqb p k then f p else 0) = f k.
Proof.
  intros Hk. rewrite (sum_single n k) by (try exact Hk; intros p _ Hp; destruct (Nat.eqb_spec p k); congruence).
  rewrite Nat.eqb_refl. reflexivity.
Qed.

Lemma site_op_zero p is js : site_op p (fun _ _ => 0) is js = 0.
Proof. revert is js. induction p as [|p IH]; intros [|i is] [|j js]; cbn; try ring. rewrite IH. ring. Qed.

(** *** add_interaction *)
Lemma add_nn_thread ds b O Hi i Hj O' : hform ds b O -> add_interaction O Hi i Hj = Ok O' ->
  (0 <= i)%Z /\ (i + 1 < Z.of_nat (length ds))%Z /\
  dims Hi = [nth (Z.to_nat i) ds 0%nat; nth (Z.to_nat i) ds 0%nat] /\
  dims Hj = [nth (S (Z.to_nat i)) ds 0%nat; nth (S (Z.to_nat i)) ds 0%nat] /\
  thread ds b O O' (Z.to_nat i) (S (S (Z.to_nat i)))
    (fun k => if Nat.eqb k (Z.to_nat i) then mat Hi else fun _ _ => 0) (fun _ _ _ => 0)
    (fun k => if Nat.eqb k (S (Z.to_nat i)) then mat Hj else fun _ _ => 0) (fun _ _ _ => 0).
Proof.
  intros HF. unfold add_interaction. rewrite (hf_len _ _ _ HF).
  destruct (Z.ltb_spec i 0); [discriminate|]. destruct (Z.leb_spec (Z.of_nat (length ds)) (i + 1)); [discriminate|].
  destruct (is_square Hi) eqn:Es; [|discriminate]. cbn [negb].
  destruct (is_square Hj) eqn:Et; [|discriminate]. cbn [negb].
  destruct (is_square_spec Hi Es) as (d & Hd). destruct (is_square_spec Hj Et) as (d' & Hd').
  cbv zeta. set (k0 := Z.to_nat i). assert (Hk0 : (S k0 < length ds)%nat) by (unfold k0; lia).
  replace (k0 + 1)%nat with (S k0) by lia. replace (k0 + 2)%nat with (S (S k0)) by lia.
  pose proof (hf_dims _ _ _ HF k0 ltac:(lia)) as HD. pose proof (hf_dims _ _ _ HF (S k0) Hk0) as HD'.
  assert (HdHi : dim Hi 0 = d) by (unfold dim; rewrite Hd; reflexivity).
  assert (HdHj : dim Hj 0 = d') by (unfold dim; rewrite Hd'; reflexivity).
  assert (Hd3 : dim (site O k0) 3 = b (S k0)) by (unfold dim; rewrite HD; reflexivity).
  assert (Hc3 : dim (change_dimension (site O k0) 3 (b (S k0) + 1)) 1 = nth k0 ds 0%nat)
    by (unfold dim; rewrite (dims_change3 _ _ _ _ _ _ HD); reflexivity).
  assert (Hc0 : dim (change_dimension (site O (S k0)) 0 (b (S k0) + 1)) 1 = nth (S k0) ds 0%nat)
    by (unfold dim; rewrite (dims_change0 _ _ _ _ _ _ HD'); reflexivity).
  rewrite Hd3, HdHi, HdHj, Hc3, Hc0.
  destruct (Nat.eqb_spec (nth k0 ds 0%nat) d) as [E|]; [|discriminate]. cbn [negb].
  destruct (Nat.eqb_spec (nth (S k0) ds 0%nat) d') as [E'|]; [|discriminate]. cbn [negb].
  intros EQ. apply Ok_inj in EQ. subst O'. split; [lia|]. split; [lia|]. split; [rewrite Hd, E; reflexivity|].
  split; [rewrite Hd', E'; reflexivity|].
  replace (b (S k0) + 1 - 1)%nat with (b (S k0)) by lia.
  match goal with |- context [replace_nth (S k0) ?P _] => set (Pj := P) end.
  assert (EPj : Pj = set_block (change_dimension (site O (S k0)) 0 (b (S k0) + 1)) (b (S k0)) (fin (length ds) (S k0)) Hj).
  { unfold Pj, fin. destruct (Nat.eqb (S (S k0)) (length ds)); reflexivity. }
  rewrite EPj. clear Pj EPj.
  assert (Hs : forall k, (k < length ds)%nat -> site (replace_nth (S k0)
      (set_block (change_dimension (site O (S k0)) 0 (b (S k0) + 1)) (b (S k0)) (fin (length ds) (S k0)) Hj)
      (replace_nth k0 (set_block (change_dimension (site O k0) 3 (b (S k0) + 1)) 0 (b (S k0)) Hi) O)) k =
    if Nat.eqb k (S k0) then set_block (change_dimension (site O (S k0)) 0 (b (S k0) + 1)) (b (S k0)) (fin (length ds) (S k0)) Hj
    else if Nat.eqb k k0 then set_block (change_dimension (site O k0) 3 (b (S k0) + 1)) 0 (b (S k0)) Hi
    else site O k).
  { intros k Hk. rewrite site_replace_nth by (rewrite length_replace_nth, (hf_len _ _ _ HF); exact Hk0).
    rewrite site_replace_nth by (rewrite (hf_len _ _ _ HF); lia). reflexivity. }
  assert (Hnb : forall k, nb k0 (S (S k0)) k = Nat.eqb k (S k0)).
  { intros k. unfold nb. destruct (Nat.ltb_spec k0 k), (Nat.ltb_spec k (S (S k0))), (Nat.eqb_spec k (S k0)); cbn; try reflexivity; lia. }
  assert (HnbS : forall k, nb k0 (S (S k0)) (S k) = Nat.eqb k k0) by (intros k; rewrite Hnb; reflexivity).
  pose proof (hform_bpos _ _ _ HF (S k0) ltac:(lia)) as Hbp.
  constructor; try intros k.
  - lia.
  - rewrite !length_replace_nth. apply (hf_len _ _ _ HF).
  - intros Hk. rewrite Hs by exact Hk. rewrite Hnb, HnbS. destruct (Nat.eqb_spec k (S k0)) as [->|].
    + rewrite dims_set_block, (dims_change0 _ _ _ _ _ _ HD'). destruct (Nat.eqb_spec (S k0) k0); [lia|].
      rewrite Nat.add_0_r. reflexivity.
    + destruct (Nat.eqb_spec k k0) as [->|].
      * rewrite dims_set_block, (dims_change3 _ _ _ _ _ _ HD). rewrite Nat.add_0_r. reflexivity.
      * rewrite !Nat.add_0_r. apply (hf_dims _ _ _ HF). exact Hk.
  - intros Hk. rewrite Hs by exact Hk.
    destruct (Nat.eqb k (S k0)); [apply wf_set_block|]. destruct (Nat.eqb k k0); [apply wf_set_block|].
    apply (hf_wf _ _ _ HF). exact Hk.
  - intros a c x y Hk Ha Hc Hx Hy. rewrite Hs by exact Hk. destruct (Nat.eqb_spec k (S k0)) as [->|].
    + rewrite (get_set_block _ _ _ _ (b (S k0) + 1) (nth (S k0) ds 0%nat) (nth (S k0) ds 0%nat) (b (S (S k0))))
        by (try assumption; try lia; apply (dims_change0 _ _ _ _ _ _ HD')).
      rewrite (get_change_dim0 _ _ _ _ _ _ _ _ _ _ HD') by (assumption || lia).
      destruct (Nat.eqb_spec a (b (S k0))); [lia|]. cbn [andb]. destruct (Nat.ltb_spec a (b (S k0))); [|lia]. ring.
    + destruct (Nat.eqb_spec k k0) as [->|]; [|ring].
      rewrite (get_set_block _ _ _ _ (b k0) (nth k0 ds 0%nat) (nth k0 ds 0%nat) (b (S k0) + 1))
        by (try assumption; try lia; apply (dims_change3 _ _ _ _ _ _ HD)).
      rewrite (get_change_dim3 _ _ _ _ _ _ _ _ _ _ HD) by (assumption || lia).
      destruct (Nat.eqb_spec c (b (S k0))); [lia|]. rewrite andb_false_r. destruct (Nat.ltb_spec c (b (S k0))); [|lia]. ring.
  - intros a x y Hk Ha Hn Hx Hy. rewrite Hs by exact Hk. rewrite HnbS in Hn. rewrite Hn.
    apply Nat.eqb_eq in Hn. subst k. destruct (Nat.eqb_spec k0 (S k0)); [lia|].
    rewrite (get_set_block _ _ _ _ (b k0) (nth k0 ds 0%nat) (nth k0 ds 0%nat) (b (S k0) + 1))
        by (try assumption; try lia; apply (dims_change3 _ _ _ _ _ _ HD)).
    rewrite (get_change_dim3 _ _ _ _ _ _ _ _ _ _ HD) by (assumption || lia).
    rewrite Nat.eqb_refl, andb_true_r, Nat.ltb_irrefl.
    destruct (Nat.eqb_spec a 0) as [->|Ha0]; [rewrite delta_refl; unfold mat; ring|].
    rewrite delta_neq by exact Ha0. ring.
  - intros c x y Hk Hn Hc Hx Hy. rewrite Hs by exact Hk. rewrite Hnb in Hn. rewrite Hn.
    apply Nat.eqb_eq in Hn. subst k.
    rewrite (get_set_block _ _ _ _ (b (S k0) + 1) (nth (S k0) ds 0%nat) (nth (S k0) ds 0%nat) (b (S (S k0))))
        by (try assumption; try lia; apply (dims_change0 _ _ _ _ _ _ HD')).
    rewrite (get_change_dim0 _ _ _ _ _ _ _ _ _ _ HD') by (assumption || lia).
    rewrite Nat.eqb_refl, Nat.ltb_irrefl. cbn [andb].
    destruct (Nat.eqb_spec c (fin (length ds) (S k0))) as [->|Hc1]; [rewrite delta_refl; unfold mat; ring|].
    rewrite delta_neq by exact Hc1. ring.
  - intros x y Hk Hn Hn'. rewrite Hnb in Hn. rewrite HnbS in Hn'. apply Nat.eqb_eq in Hn, Hn'. lia.
  - intros x y Hn. rewrite HnbS in Hn. rewrite Hn. reflexivity.
  - intros x y _. reflexivity.
Qed.

Lemma Nw_nn Hi Hj k0 is js : length js = length is -> (S k0 < length is)%nat ->
  Nw (fun k => if Nat.eqb k k0 then mat Hi else fun _ _ => 0) (fun _ _ _ => 0)
     (fun k => if Nat.eqb k (S k0) then mat Hj else fun _ _ => 0) (fun _ _ _ => 0) 0 is js =
  product_op 0 (fun k => if Nat.eqb k k0 then mat Hi else if Nat.eqb k (S k0) then mat Hj else delta) is js.
Proof.
  intros Hl Hk. rewrite Nw_sum by exact Hl.
  rewrite (sum_zero (length is) (fun p => product_op _ _ _ _)).
  2:{ intros p Hp. apply (product_op_zero _ _ _ _ p); [lia|exact Hl|]. intros i j. cbn [Nat.add].
      rewrite Nat.eqb_refl. reflexivity. }
  rewrite (sum_single _ k0); [|lia|].
  - rewrite (sum_single _ (S k0)); [|exact Hk|].
    + destruct (Nat.ltb_spec k0 (S k0)); [|lia]. cbn [Nat.add].
      replace (0 + _) with (pair_op (fun k => if Nat.eqb k k0 then mat Hi else fun _ _ => 0) (fun _ _ _ => 0)
        (fun k => if Nat.eqb k (S k0) then mat Hj else fun _ _ => 0) 0 k0 (S k0) is js) by ring.
      apply product_op_ext_in. intros k i j _. destruct (Nat.eqb_spec k k0); [reflexivity|].
      destruct (Nat.eqb_spec k (S k0)); [reflexivity|].
      destruct (Nat.ltb_spec k0 k), (Nat.ltb_spec k (S k0)); cbn; try reflexivity; lia.
    + intros q Hq Hne. destruct (Nat.ltb k0 q) eqn:El; [|reflexivity]. apply Nat.ltb_lt in El. cbn [Nat.add].
      apply (product_op_zero _ _ _ _ q); [lia|exact Hl|]. intros i j.
      destruct (Nat.eqb_spec q k0); [lia|]. rewrite Nat.eqb_refl. destruct (Nat.eqb_spec q (S k0)); [lia|reflexivity].
  - intros p Hp Hne. apply sum_zero. intros q Hq. destruct (Nat.ltb p q); [|reflexivity]. cbn [Nat.add].
    apply (product_op_zero _ _ _ _ p); [lia|exact Hl|]. intros i j. rewrite Nat.eqb_refl.
    destruct (Nat.eqb_spec p k0); [lia|reflexivity].
Qed.

End Add.
