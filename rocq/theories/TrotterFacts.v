(** Proofs about the Trotter unitaries: construction *)
From Coq Require Import Reals Lra Bool List Arith ZArith Lia Ring.
From Verif Require Import Scalar ScalarFacts RScal Tensor TensorFacts Spec MpsModel MpsFacts EnvFacts ExpectedFacts
  StateFacts HamSpec HamModel HamFacts HamConst SparseSpec SparseModel SparseFacts Properties_Sparse CanonModel TrotterSpec TrotterModel.
Import ListNotations.
Local Open Scope K_scope.

Section Blocks.
Context {SC : Scalar}.
Add Ring Kring : k_ring.

(** ** Blocks *)
Lemma blocks_false p n : blocks false p (S n) = (p, false) :: blocks true (S p) n.
Proof. destruct n; reflexivity. Qed.
Lemma blocks_true p n : blocks true p (S (S n)) = (p, true) :: blocks true (S (S p)) n.
Proof. reflexivity. Qed.

Lemma blocks_ind2 (P : bool -> nat -> nat -> Prop) :
  (forall b p, P b p 0%nat) -> (forall b p, P b p 1%nat) ->
  (forall p n, P true (S (S p)) n -> P true p (S (S n))) ->
  (forall p n, P true (S p) (S n) -> P false p (S (S n))) -> forall b p n, P b p n.
Proof.
  intros H0 H1 Ht Hf.
  assert (G : forall n, (forall p, P true p n) /\ (forall p, P true p (S n))).
  { induction n as [|n (IH1 & IH2)]; [split; intros; auto|]. split; [exact IH2|]. intros p. apply Ht. apply IH1. }
  intros b p n. destruct b; [apply (proj1 (G n))|].
  destruct n as [|[|n]]; [apply H0|apply H1|]. apply Hf. apply (proj2 (G n)).
Qed.

(** Every block lies inside the chain. *)
Lemma blocks_range b p n x : In x (blocks b p n) -> (p <= fst x)%nat /\ (fst x + (if snd x then 2 else 1) <= p + n)%nat.
Proof.
  revert b p n x. apply (blocks_ind2 (fun b p n => forall x, In x (blocks b p n) -> (p <= fst x)%nat /\ (fst x + (if snd x then 2 else 1) <= p + n)%nat)).
  - intros b p x [].
  - intros b p x [<-|[]]. cbn. lia.
  - intros p n IH x. rewrite blocks_true. intros [<-|Hx]; [cbn; lia|]. apply IH in Hx. lia.
  - intros p n IH x. rewrite blocks_false. intros [<-|Hx]; [cbn; lia|]. apply IH in Hx. lia.
Qed.

(** Sum over the pairs of a layer *)
Definition pairs_sum (f : nat -> K) (l : list (nat * bool)) : K :=
  fold_right (fun (x : nat * bool) (s : K) => (if snd x then f (fst x) else 0) + s) 0 l.
Definition cover_sum (g : nat -> K) (l : list (nat * bool)) : K :=
  fold_right (fun (x : nat * bool) (s : K) => (g (fst x) + (if snd x then g (S (fst x)) else 0)) + s) 0 l.

Lemma pairs_both f : forall n p, pairs_sum f (blocks true p (S n)) + pairs_sum f (blocks false p (S n)) = sum n (fun j => f (p + j)%nat).
Proof.
  induction n as [|n IH]; intros p.
  - cbn. ring.
  - rewrite blocks_true, blocks_false. cbn [pairs_sum fold_right fst snd]. rewrite sum_S_l.
    specialize (IH (S p)). rewrite blocks_false in IH. cbn [pairs_sum fold_right fst snd] in IH.
    rewrite Nat.add_0_r. rewrite (sum_ext n _ (fun j => f (S p + j)%nat)) by (intros j Hj; f_equal; lia). rewrite <- IH.
    unfold pairs_sum. ring.
Qed.

Lemma cover_all g b p n : cover_sum g (blocks b p n) = sum n (fun j => g (p + j)%nat).
Proof.
  revert b p n. apply blocks_ind2.
  - reflexivity.
  - intros b p. cbn. rewrite Nat.add_0_r. ring.
  - intros p n IH. rewrite blocks_true. cbn [cover_sum fold_right fst snd]. fold (cover_sum g (blocks true (S (S p)) n)). rewrite IH.
    rewrite !sum_S_l. rewrite !Nat.add_0_r, Nat.add_1_r.
    rewrite (sum_ext n (fun i => g (p + S (S i))%nat) (fun j => g (S (S p) + j)%nat)) by (intros; f_equal; lia). ring.
  - intros p n IH. rewrite blocks_false. cbn [cover_sum fold_right fst snd]. fold (cover_sum g (blocks true (S p) (S n))). rewrite IH.
    rewrite (sum_S_l (S n)). rewrite !Nat.add_0_r.
    rewrite (sum_ext (S n) (fun i => g (p + S i)%nat) (fun j => g (S p + j)%nat)) by (intros; f_equal; lia). ring.
Qed.
End Blocks.

(** ** The range of the pairs *)
Lemma u_range_spec N k k0 kN : (k <= 1)%nat -> (0 < N)%nat -> u_range N k = (k0, kN) ->
  k0 = k /\ exists m, (kN = k0 + 2 * m /\ kN <= N < kN + 2)%nat.
Proof.
  intros Hk HN E. unfold u_range in E. injection E as <- E. split; [reflexivity|].
  assert (Hodd : exists q, (N = 2 * q \/ N = 2 * q + 1)%nat /\ Nat.odd N = negb (Nat.even N)) by
    (exists (N / 2)%nat; pose proof (Nat.div_mod N 2 ltac:(lia)); pose proof (Nat.mod_upper_bound N 2 ltac:(lia)); split; [lia|rewrite <- Nat.negb_even; reflexivity]).
  destruct Hodd as (q & Hq & _).
  assert (HoN : Nat.odd N = (if Nat.eqb N (2 * q) then false else true)).
  { destruct Hq as [-> | ->].
    - rewrite Nat.eqb_refl. rewrite Nat.odd_mul. reflexivity.
    - destruct (Nat.eqb_spec (2 * q + 1) (2 * q)); [lia|]. rewrite Nat.odd_add, Nat.odd_mul. reflexivity. }
  rewrite HoN in E. clear HoN.
  destruct k as [|[|k]]; [| |lia]; cbn [Nat.odd Nat.even negb] in E; destruct (Nat.eqb_spec N (2 * q)); cbn [xorb Nat.odd negb Nat.even] in E.
  - destruct (Nat.ltb_spec (N - 0) 2); subst kN; [exists 0%nat|exists q]; lia.
  - destruct (Nat.ltb_spec (N - 1 - 0) 2); subst kN; [exists 0%nat|exists q]; lia.
  - destruct (Nat.ltb_spec (N - 1 - 1) 2); subst kN; [exists 0%nat|exists (q - 1)%nat]; lia.
  - destruct (Nat.ltb_spec (N - 1) 2); subst kN; [exists 0%nat|exists q]; lia.
Qed.

Section Facts.
Context {RS : RScal}.
Add Ring Kring : k_ring.
Variable expm : tensor -> tensor.

(** What Unitary() needs: all terms are matrices of the right dimensions. *)
Definition full_terms (H : hamiltonian) : Prop :=
  (0 < h_size H)%nat /\
  (forall k, (k < h_size H)%nat -> (0 < h_dim H k)%nat /\ is_matrix (h_local H k) (h_dim H k) (h_dim H k)) /\
  (forall k, (S k < h_size H)%nat -> is_matrix (h_interaction H k) (h_dim H k * h_dim H (S k)) (h_dim H k * h_dim H (S k))).

Lemma half_twice x : half * x + half * x = x.
Proof.
  replace (half * x + half * x) with ((half + half) * x) by ring. unfold half. rewrite <- rinj_add.
  replace (/ 2 + / 2)%R with 1%R by lra. rewrite rinj_1. ring.
Qed.

Lemma u_single_ok H k : full_terms H -> (k < h_size H)%nat -> is_matrix (u_single H k) (h_dim H k) (h_dim H k) /\
  forall i j, (i < h_dim H k)%nat -> (j < h_dim H k)%nat -> mat (u_single H k) i j = half * mat (h_local H k) i j.
Proof.
  intros (_ & Hl & _) Hk. destruct (Hl k Hk) as (_ & D & W). split.
  - split; [exact D|apply wf_tscale; exact W].
  - intros i j Hi Hj. unfold mat, u_single. apply get_tscale; [exact W|]. rewrite D. apply in_range_2; assumption.
Qed.

Lemma u_pair_ok H k : full_terms H -> (S k < h_size H)%nat ->
  let d := h_dim H k in let d' := h_dim H (S k) in
  exists G, u_pair H k = Ok G /\ is_matrix G (d * d') (d * d') /\
    forall i1 i2 j1 j2, (i1 < d)%nat -> (i2 < d')%nat -> (j1 < d)%nat -> (j2 < d')%nat ->
      mat G (i1 + d * i2) (j1 + d * j2) = mat (h_interaction H k) (i1 + d * i2) (j1 + d * j2) +
        half * mat (h_local H k) i1 j1 * delta i2 j2 + delta i1 j1 * (half * mat (h_local H (S k)) i2 j2).
Proof.
  intros HF Hk d d'. pose proof HF as (_ & Hl & Hi). pose proof (Hi k Hk) as HI.
  destruct (u_single_ok H k HF ltac:(lia)) as (S1 & G1). destruct (u_single_ok H (S k) HF Hk) as (S2 & G2).
  unfold u_pair. replace (k + 1)%nat with (S k) by lia. fold d d' in HI, S1, S2 |- *. fold (u_single H k) (u_single H (S k)).
  assert (E1 : is_matrix (eye d) d d) by (split; [reflexivity|apply wf_mk]).
  assert (E2 : is_matrix (eye d') d' d') by (split; [reflexivity|apply wf_mk]).
  assert (K1 : is_matrix (kron2 (u_single H k) (eye d')) (d * d') (d * d')).
  { unfold kron2. split; [rewrite (dims_kron _ _ d' d' d d) by (apply E2 || apply S1); rewrite (Nat.mul_comm d' d); reflexivity|apply wf_mk]. }
  assert (K2 : is_matrix (kron2 (eye d) (u_single H (S k))) (d * d') (d * d')).
  { unfold kron2. split; [rewrite (dims_kron _ _ d' d' d d) by (apply E1 || apply S2); rewrite (Nat.mul_comm d' d); reflexivity|apply wf_mk]. }
  destruct (sadd_ok _ _ _ HI K1) as (Z & EZ & HZ & HgZ). destruct (sadd_ok _ _ _ HZ K2) as (Y & EY & HY & HgY).
  exists Y. rewrite EZ. cbn [bind]. split; [exact EY|]. split; [exact HY|].
  intros i1 i2 j1 j2 A B C D. unfold mat at 1. rewrite HgY by nia. rewrite HgZ by nia.
  rewrite (get_kron2 (u_single H k) (eye d') d d') by assumption. rewrite (get_kron2 (eye d) (u_single H (S k)) d d') by assumption.
  rewrite G1, G2 by assumption. unfold mat. rewrite !get_eye by assumption. reflexivity.
Qed.

Definition gen (H : hamiltonian) (x : nat * bool) : tensor :=
  if snd x then match u_pair H (fst x) with Ok t => t | Abort => empty end else u_single H (fst x).

Lemma u_exp_ok M n dt : is_matrix M n n -> u_exp expm M dt = Ok (expm (tscale dt M)).
Proof. intros (D & _). unfold u_exp, rank, dim. rewrite D. cbn. rewrite Nat.eqb_refl. reflexivity. Qed.

Lemma fill_ok H dt k0 kN : full_terms H -> (exists m, (kN = k0 + 2 * m /\ kN <= h_size H < kN + 2)%nat) ->
  forall b p n, (p + n = h_size H)%nat -> (if (b : bool) then exists q, p = k0 + 2 * q else p + 1 = k0)%nat ->
  forall fuel U, (n <= fuel)%nat -> length U = h_size H ->
  exists U', u_fill expm H dt k0 kN fuel p U = Ok U' /\ length U' = h_size H /\
    (forall j, (j < p)%nat -> nth j U' empty = nth j U empty) /\
    (forall x, In x (blocks b p n) -> nth (fst x) U' empty = expm (tscale dt (gen H x))).
Proof.
  intros HF (m & Hm1 & Hm2).
  apply (blocks_ind2 (fun b p n => (p + n = h_size H)%nat -> (if (b : bool) then exists q, p = k0 + 2 * q else p + 1 = k0)%nat ->
    forall fuel U, (n <= fuel)%nat -> length U = h_size H ->
    exists U', u_fill expm H dt k0 kN fuel p U = Ok U' /\ length U' = h_size H /\
      (forall j, (j < p)%nat -> nth j U' empty = nth j U empty) /\
      (forall x, In x (blocks b p n) -> nth (fst x) U' empty = expm (tscale dt (gen H x))))).
  - intros b p Hp Hb fuel U Hf HU. exists U. split; [|split; [exact HU|split; [auto|intros x []]]].
    destruct fuel; [reflexivity|]. cbn [u_fill]. destruct (Nat.ltb_spec p (h_size H)); [lia|]. reflexivity.
  - intros b p Hp Hb fuel U Hf HU. destruct fuel as [|fuel]; [lia|]. cbn [u_fill]. destruct (Nat.ltb_spec p (h_size H)); [|lia].
    replace (Nat.ltb p k0 || Nat.leb kN p)%bool with true.
    2:{ symmetry. destruct b; [destruct Hb as (q & ->)|]; apply orb_true_iff; [right; apply Nat.leb_le|left; apply Nat.ltb_lt]; lia. }
    destruct (u_single_ok H p HF ltac:(lia)) as (HS & _). rewrite (u_exp_ok _ _ dt HS). cbn [bind].
    exists (replace_nth p (expm (tscale dt (u_single H p))) U).
    split; [destruct fuel; [reflexivity|]; cbn [u_fill]; destruct (Nat.ltb_spec (p + 1) (h_size H)); [lia|reflexivity]|].
    split; [rewrite length_replace_nth; exact HU|]. split; [intros j Hj; apply nth_replace_nth_neq; lia|].
    intros x Hx. assert (x = (p, false)) by (destruct Hx as [<-|[]]; reflexivity). subst x. cbn [fst gen snd].
    apply nth_replace_nth_eq. lia.
  - intros p n IH Hp (q & Hq) fuel U Hf HU. destruct fuel as [|fuel]; [lia|]. cbn [u_fill].
    destruct (Nat.ltb_spec p (h_size H)); [|lia].
    replace (Nat.ltb p k0 || Nat.leb kN p)%bool with false.
    2:{ symmetry. apply orb_false_iff. split; [apply Nat.ltb_ge; lia|apply Nat.leb_gt; lia]. }
    destruct (u_pair_ok H p HF ltac:(lia)) as (G & EG & HG & _). rewrite EG. cbn [bind]. rewrite (u_exp_ok _ _ dt HG). cbn [bind].
    replace (p + 2)%nat with (S (S p)) by lia.
    destruct (IH ltac:(lia) ltac:(exists (S q); lia) fuel (replace_nth p (expm (tscale dt G)) U) ltac:(lia)) as (U' & E & HU' & Hlow & Hb).
    { rewrite length_replace_nth. exact HU. }
    exists U'. split; [exact E|]. split; [exact HU'|]. split.
    + intros j Hj. rewrite Hlow by lia. apply nth_replace_nth_neq. lia.
    + intros x. rewrite blocks_true. intros [<-|Hx]; [|apply Hb; exact Hx]. cbn [fst snd]. rewrite Hlow by lia.
      rewrite nth_replace_nth_eq by lia. unfold gen. cbn [fst snd]. rewrite EG. reflexivity.
  - intros p n IH Hp Hk fuel U Hf HU. destruct fuel as [|fuel]; [lia|]. cbn [u_fill].
    destruct (Nat.ltb_spec p (h_size H)); [|lia].
    replace (Nat.ltb p k0 || Nat.leb kN p)%bool with true.
    2:{ symmetry. apply orb_true_iff. left. apply Nat.ltb_lt. lia. }
    destruct (u_single_ok H p HF ltac:(lia)) as (HS & _). rewrite (u_exp_ok _ _ dt HS). cbn [bind].
    replace (p + 1)%nat with (S p) by lia.
    destruct (IH ltac:(lia) ltac:(exists 0%nat; lia) fuel (replace_nth p (expm (tscale dt (u_single H p))) U) ltac:(lia)) as (U' & E & HU' & Hlow & Hb).
    { rewrite length_replace_nth. exact HU. }
    exists U'. split; [exact E|]. split; [exact HU'|]. split.
    + intros j Hj. rewrite Hlow by lia. apply nth_replace_nth_neq. lia.
    + intros x. rewrite blocks_false. intros [<-|Hx]; [|apply Hb; exact Hx]. cbn [fst snd]. rewrite Hlow by lia.
      rewrite nth_replace_nth_eq by lia. reflexivity.
Qed.

Definition is_even (k : nat) : bool := Nat.eqb k 0.

Lemma unitary_new_ok H k dt : full_terms H -> (k <= 1)%nat ->
  exists u, unitary_new expm H k dt = Ok u /\ length (u_U u) = h_size H /\
    (u_k0 u = k /\ exists m, (u_kN u = k + 2 * m /\ u_kN u <= h_size H < u_kN u + 2)%nat) /\
    forall x, In x (blocks (is_even k) 0 (h_size H)) -> u_at u (fst x) = expm (tscale dt (gen H x)).
Proof.
  intros HF Hk. unfold unitary_new. destruct (Nat.ltb_spec 1 k); [lia|].
  destruct (u_range (h_size H) k) as [k0 kN] eqn:Er. pose proof HF as (HN & _).
  destruct (u_range_spec _ _ _ _ Hk HN Er) as (-> & Hm).
  destruct (fill_ok H dt k kN HF Hm (is_even k) 0 (h_size H) eq_refl) with (fuel := h_size H) (U := repeat (@empty (@rs_scalar RS)) (h_size H)) as (U & E & HU & _ & Hb).
  - unfold is_even. destruct (Nat.eqb_spec k 0); [exists 0%nat; lia|lia].
  - lia.
  - apply repeat_length.
  - rewrite E. cbn [bind]. exists (mkU k kN U). split; [reflexivity|]. split; [exact HU|]. cbn [u_k0 u_kN]. split; [split; [reflexivity|exact Hm]|].
    exact Hb.
Qed.

(** ** Sums of generators *)
Lemma pair_site_first ds k A is js : in_range ds is -> in_range ds js -> (S k < length ds)%nat ->
  pair_op k ds (fun r c => A (r mod nth k ds 0)%nat (c mod nth k ds 0)%nat * delta (r / nth k ds 0)%nat (c / nth k ds 0)%nat) is js = site_op k A is js.
Proof.
  intros Hi Hj Hk. rewrite (pair_op_product_gen ds 0 k A delta is js Hi Hj Hk). cbn [Nat.add].
  pose proof (in_range_length _ _ Hi). pose proof (in_range_length _ _ Hj).
  rewrite <- (product_op_site 0 k A is js) by lia. apply product_op_ext. intros m i j _. cbn [Nat.add].
  destruct (Nat.eqb m k); [reflexivity|]. destruct (Nat.eqb m (S k)); reflexivity.
Qed.
Lemma pair_site_second ds k A is js : in_range ds is -> in_range ds js -> (S k < length ds)%nat ->
  pair_op k ds (fun r c => delta (r mod nth k ds 0)%nat (c mod nth k ds 0)%nat * A (r / nth k ds 0)%nat (c / nth k ds 0)%nat) is js = site_op (S k) A is js.
Proof.
  intros Hi Hj Hk. rewrite (pair_op_product_gen ds 0 k delta A is js Hi Hj Hk). cbn [Nat.add].
  pose proof (in_range_length _ _ Hi). pose proof (in_range_length _ _ Hj).
  rewrite <- (product_op_site 0 (S k) A is js) by lia. apply product_op_ext. intros m i j _. cbn [Nat.add].
  destruct (Nat.eqb_spec m k); [subst; destruct (Nat.eqb_spec k (S k)); [lia|reflexivity]|]. reflexivity.
Qed.

Lemma site_op_scale k c A is js : site_op k (fun i j => c * A i j) is js = c * site_op k A is js.
Proof.
  revert is js. induction k as [|k IH]; intros [|i is] [|j js]; cbn [site_op]; try ring. rewrite IH. ring.
Qed.
Lemma site_op_ext ds k A B is js : in_range ds is -> in_range ds js -> (k < length ds)%nat ->
  (forall i j, (i < nth k ds 0)%nat -> (j < nth k ds 0)%nat -> A i j = B i j) -> site_op k A is js = site_op k B is js.
Proof.
  intros Hi. revert k js. induction Hi as [|d i ds is Hi Hr IH]; intros k js Hj Hk HE; [cbn in Hk; lia|].
  apply in_range_cons_inv in Hj. destruct Hj as (j & js' & -> & Hj & Hjs). destruct k as [|k]; cbn [site_op].
  - rewrite HE by assumption. reflexivity.
  - rewrite (IH k js' Hjs) by (cbn in Hk; try lia; exact HE). reflexivity.
Qed.

Lemma nth_h_dims H k : (k < h_size H)%nat -> nth k (h_dims H) 0%nat = h_dim H k.
Proof. intros Hk. unfold h_dims. rewrite nth_map_seq by exact Hk. reflexivity. Qed.
Lemma length_h_dims H : length (h_dims H) = h_size H.
Proof. unfold h_dims. rewrite map_length, seq_length. reflexivity. Qed.

(** The generator of a block *)
Lemma gen_ok H (x : nat * bool) is js : full_terms H -> in_range (h_dims H) is -> in_range (h_dims H) js ->
  (fst x + (if snd x then 2 else 1) <= h_size H)%nat ->
  is_matrix (gen H x) (block_dim (h_dims H) x) (block_dim (h_dims H) x) /\
  block_op (h_dims H) x (mat (gen H x)) is js =
    (if snd x then pair_op (fst x) (h_dims H) (mat (h_interaction H (fst x))) is js else 0) +
    (half * site_op (fst x) (mat (h_local H (fst x))) is js +
     (if snd x then half * site_op (S (fst x)) (mat (h_local H (S (fst x)))) is js else 0)).
Proof.
  intros HF Hi Hj Hx. destruct x as [k two]. unfold block_op, block_dim, gen. cbn [fst snd] in *. destruct two.
  - assert (Hk : (S k < length (h_dims H))%nat) by (rewrite length_h_dims; lia).
    destruct (u_pair_ok H k HF ltac:(lia)) as (G & EG & HG & Hg). rewrite EG. rewrite !nth_h_dims by lia. split; [exact HG|].
    rewrite (pair_op_ext (h_dims H) k (mat G) (fun r c => mat (h_interaction H k) r c +
       ((half * mat (h_local H k) (r mod nth k (h_dims H) 0)%nat (c mod nth k (h_dims H) 0)%nat) * delta (r / nth k (h_dims H) 0)%nat (c / nth k (h_dims H) 0)%nat +
        delta (r mod nth k (h_dims H) 0)%nat (c mod nth k (h_dims H) 0)%nat * (half * mat (h_local H (S k)) (r / nth k (h_dims H) 0)%nat (c / nth k (h_dims H) 0)%nat))) is js Hi Hj Hk).
    2:{ intros i1 i2 j1 j2. rewrite !nth_h_dims by lia. intros A B C D. rewrite Hg by assumption.
        rewrite !(Nat.mul_comm (h_dim H k)), !Nat.mod_add, !Nat.div_add, !Nat.mod_small, !Nat.div_small by lia. cbn [Nat.add]. ring. }
    rewrite (pair_op_add k (h_dims H)).
    rewrite (pair_op_add k (h_dims H) (fun r c => (half * mat (h_local H k) (r mod nth k (h_dims H) 0)%nat (c mod nth k (h_dims H) 0)%nat) * delta (r / nth k (h_dims H) 0)%nat (c / nth k (h_dims H) 0)%nat)).
    rewrite (pair_site_first (h_dims H) k (fun i j => half * mat (h_local H k) i j) is js Hi Hj Hk).
    rewrite (pair_site_second (h_dims H) k (fun i j => half * mat (h_local H (S k)) i j) is js Hi Hj Hk).
    rewrite !site_op_scale. reflexivity.
  - destruct (u_single_ok H k HF ltac:(lia)) as (HS & Hg). rewrite !nth_h_dims by lia. split; [exact HS|].
    rewrite (site_op_ext (h_dims H) k _ (fun i j => half * mat (h_local H k) i j) is js Hi Hj).
    + rewrite site_op_scale. ring.
    + rewrite length_h_dims. lia.
    + rewrite nth_h_dims by lia. exact Hg.
Qed.

Lemma layer_gen_sum H (is js : list nat) : full_terms H -> in_range (h_dims H) is -> in_range (h_dims H) js ->
  forall l, (forall x : nat * bool, In x l -> (fst x + (if snd x then 2 else 1) <= h_size H)%nat) ->
  fold_right (fun (x : nat * bool) (s : K) => block_op (h_dims H) x (mat (gen H x)) is js + s) 0 l =
  pairs_sum (fun k => pair_op k (h_dims H) (mat (h_interaction H k)) is js) l +
  cover_sum (fun k => half * site_op k (mat (h_local H k)) is js) l.
Proof.
  intros HF Hi Hj. induction l as [|x l IH]; intros Hl; cbn [fold_right pairs_sum cover_sum]; [ring|].
  destruct (gen_ok H x is js HF Hi Hj (Hl x (or_introl eq_refl))) as (_ & ->).
  rewrite (IH (fun y Hy => Hl y (or_intror Hy))). unfold pairs_sum, cover_sum. ring.
Qed.

Lemma both_layers H is js : full_terms H -> in_range (h_dims H) is -> in_range (h_dims H) js ->
  fold_right (fun (x : nat * bool) (s : K) => block_op (h_dims H) x (mat (gen H x)) is js + s) 0 (blocks true 0 (h_size H)) +
  fold_right (fun (x : nat * bool) (s : K) => block_op (h_dims H) x (mat (gen H x)) is js + s) 0 (blocks false 0 (h_size H)) =
  pair_chain (h_dims H) (h_interaction H) (h_local H) is js.
Proof.
  intros HF Hi Hj. pose proof HF as (HN & _).
  rewrite !(layer_gen_sum H is js HF Hi Hj) by (intros x Hx; apply blocks_range in Hx; lia).
  rewrite !cover_all. destruct (h_size H) as [|n] eqn:EN; [lia|].
  set (f := fun k => pair_op k (h_dims H) (mat (h_interaction H k)) is js).
  set (g := fun k => half * site_op k (mat (h_local H k)) is js).
  transitivity ((pairs_sum f (blocks true 0 (S n)) + pairs_sum f (blocks false 0 (S n))) + (sum (S n) g + sum (S n) g)); [unfold g; cbn [Nat.add]; ring|].
  rewrite pairs_both. unfold pair_chain. rewrite length_h_dims, EN. replace (S n - 1)%nat with n by lia. f_equal.
  rewrite <- sum_add. apply sum_ext. intros k Hk. unfold g. apply half_twice.
Qed.

End Facts.
