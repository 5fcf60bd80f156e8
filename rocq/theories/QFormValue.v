(** * QuadraticForm: value of the matrices it returns *)
From Coq Require Import Bool List Arith ZArith Lia Ring.
From Verif Require Import Scalar ScalarFacts Tensor TensorFacts Spec MpsModel MpsFacts EnvFacts ExpectedFacts MpoSpec MpoFacts FormModel FormSpec LFormFacts QFormFacts QFormInv.
Import ListNotations.
Local Open Scope K_scope.

Section Facts.
Context {SC : Scalar}.
Add Ring Kring : k_ring.

Lemma sum_offset ds f : sum (nprod ds) f = sumcfg ds (fun x => f (offset ds x)).
Proof.
  revert f. induction ds as [|d ds IH]; intros f; [cbn; ring|]. change (nprod (d :: ds)) with (d * nprod ds)%nat. cbn [sumcfg offset].
  rewrite sum_merge, sum_swap. apply sum_ext. intros i Hi. rewrite (IH (fun n => f (i + d * n)%nat)). reflexivity.
Qed.

Lemma get_take_diag M n i : dims M = [n; n] -> (i < n)%nat -> get (take_diag M) [i] = get M [i; i].
Proof.
  intros HM Hi. unfold take_diag, dim. rewrite HM. cbn [nth]. rewrite Nat.min_id. rewrite get_mk by (apply in_range_1; exact Hi). reflexivity.
Qed.
Lemma dims_take_diag M n : dims M = [n; n] -> dims (take_diag M) = [n].
Proof. intros HM. unfold take_diag, dim. rewrite HM. cbn [nth dims mk]. rewrite Nat.min_id. reflexivity. Qed.
Lemma get_kron2_vec a b m n i j : dims a = [m] -> dims b = [n] -> (i < m)%nat -> (j < n)%nat ->
  get (kron2_vec a b) [i + m * j]%nat = get a [i] * get b [j].
Proof.
  intros Ha Hb Hi Hj. unfold kron2_vec, dim. rewrite Ha, Hb. cbn [nth].
  rewrite get_mk by (apply in_range_1; nia). cbn [nth]. f_equal; f_equal; f_equal.
  - rewrite Nat.mul_comm, Nat.mod_add, Nat.mod_small; lia.
  - rewrite Nat.mul_comm, Nat.div_add, Nat.div_small; lia.
Qed.
Lemma dims_kron2_vec a b m n : dims a = [m] -> dims b = [n] -> dims (kron2_vec a b) = [m * n]%nat.
Proof. intros Ha Hb. unfold kron2_vec, dim. rewrite Ha, Hb. reflexivity. Qed.

(** Site tensors between a left and a right environment: pairs of one site *)
Section OneSite.
Variables (t : tensor) (l d c ra rb ca cb : nat).
Variables (left right : nat -> tensor) (LF RF : nat -> nat -> nat -> K).
Hypothesis Ht : dims t = [l; d; d; c].
Hypothesis Hpos : (0 < ra /\ 0 < rb /\ 0 < ca /\ 0 < cb /\ 0 < d)%nat.
Hypothesis HL : forall m, (m < l)%nat -> vten [1; 1; ra; rb]%nat (left m) (lenv_of (LF m)).
Hypothesis HR : forall n, (n < c)%nat -> vten [ca; cb; 1; 1]%nat (right n) (renv_of (RF n)).

Lemma L_full m : (m < l)%nat -> is_empty (left m) = false -> dims (left m) = [1; 1; ra; rb]%nat /\ wf (left m) /\
  forall x y, (x < ra)%nat -> (y < rb)%nat -> get (left m) [0; 0; x; y]%nat = LF m x y.
Proof.
  clear Hpos HR Ht.
  intros Hm E. destruct (HL m Hm) as [(E' & _)|(_ & Hw & Hd & Hg)]; [congruence|]. split; [exact Hd|]. split; [exact Hw|].
  intros x y Hx Hy. rewrite Hg by (apply in_range_4; lia). reflexivity.
Qed.
Lemma R_full n : (n < c)%nat -> is_empty (right n) = false -> dims (right n) = [ca; cb; 1; 1]%nat /\ wf (right n) /\
  forall x y, (x < ca)%nat -> (y < cb)%nat -> get (right n) [x; y; 0; 0]%nat = RF n x y.
Proof.
  clear Hpos HL Ht.
  intros Hm E. destruct (HR n Hm) as [(E' & _)|(_ & Hw & Hd & Hg)]; [congruence|]. split; [exact Hd|]. split; [exact Hw|].
  intros x y Hx Hy. rewrite Hg by (apply in_range_4; lia). reflexivity.
Qed.
Lemma L_empty m x y : (m < l)%nat -> is_empty (left m) = true -> (x < ra)%nat -> (y < rb)%nat -> LF m x y = 0.
Proof.
  clear Hpos HR Ht.
  intros Hm E Hx Hy. destruct (HL m Hm) as [(_ & H)|(E' & _)]; [|congruence]. apply (H [0; 0; x; y]%nat). apply in_range_4; lia.
Qed.
Lemma R_empty n x y : (n < c)%nat -> is_empty (right n) = true -> (x < ca)%nat -> (y < cb)%nat -> RF n x y = 0.
Proof.
  clear Hpos HL Ht.
  intros Hm E Hx Hy. destruct (HR n Hm) as [(_ & H)|(E' & _)]; [|congruence]. apply (H [x; y; 0; 0]%nat). apply in_range_4; lia.
Qed.

Lemma LRempty m n x y z w : (m < l)%nat -> (n < c)%nat -> is_empty (left m) || is_empty (right n) = true ->
  (x < ra)%nat -> (y < rb)%nat -> (z < ca)%nat -> (w < cb)%nat -> forall o, LF m x y * o * RF n z w = 0.
Proof.
  clear Hpos Ht.
  intros Hm Hn E Hx Hy Hz Hw o. apply orb_true_iff in E. destruct E as [E|E]; [rewrite (L_empty m) by assumption|rewrite (R_empty n) by assumption]; ring.
Qed.

Definition form1 (x i z y j w : nat) : K := sum l (fun m => sum c (fun n => LF m x y * get t [m; i; j; n] * RF n z w)).

Lemma in_range_inv3 a b e u : in_range [a; b; e] u -> exists i j k, u = [i; j; k] /\ (i < a)%nat /\ (j < b)%nat /\ (k < e)%nat.
Proof. intros H. apply in_range_cons_inv in H. destruct H as (i & x & -> & Hi & H). apply in_range_inv2 in H. destruct H as (j & k & -> & Hj & Hk). exists i, j, k. auto. Qed.

Lemma mult_comm3 a b e : (a * (b * (e * 1)) = e * b * a)%nat. Proof. ring. Qed.

Lemma unravel3 a b e r : (r < a * (b * (e * 1)))%nat -> exists x i z, (x < a)%nat /\ (i < b)%nat /\ (z < e)%nat /\ r = (x + a * (i + b * z))%nat /\ unravel [a; b; e] r = [x; i; z].
Proof.
  intros Hr. change (a * (b * (e * 1)))%nat with (nprod [a; b; e]) in Hr. pose proof (unravel_in_range _ _ Hr) as H. pose proof (offset_unravel _ _ Hr) as H2.
  apply in_range_inv3 in H. destruct H as (x & i & z & E & Hx & Hi & Hz). exists x, i, z. rewrite E in *. repeat split; auto. cbn in H2. rewrite <- H2. ring.
Qed.

Definition mform1 (u : list nat) : K :=
  let r := unravel [ra; d; ca] (nth 0 u 0%nat) in let s := unravel [rb; d; cb] (nth 1 u 0%nat) in
  form1 (nth 0 r 0%nat) (nth 1 r 0%nat) (nth 2 r 0%nat) (nth 0 s 0%nat) (nth 1 s 0%nat) (nth 2 s 0%nat).

Lemma single_matrix_vten :
  exists v, add_pairs (site_pairs t) (fun p => left (p_left p)) (fun p => right (p_right p)) qf_compose = Ok v /\
    vten [ra * (d * (ca * 1)); rb * (d * (cb * 1))]%nat v mform1.
Proof.
  set (D := [ra * (d * (ca * 1)); rb * (d * (cb * 1))]%nat).
  set (G := fun (p : qpair) (u : list nat) => 
    let r := unravel [ra; d; ca] (nth 0 u 0%nat) in let s := unravel [rb; d; cb] (nth 1 u 0%nat) in
    LF (p_left p) (nth 0 r 0%nat) (nth 0 s 0%nat) * get (p_op p) [nth 1 r 0%nat; nth 1 s 0%nat] * RF (p_right p) (nth 2 r 0%nat) (nth 2 s 0%nat)).
  destruct (add_pairs_value D (site_pairs t) (fun p => left (p_left p)) (fun p => right (p_right p)) qf_compose G) as (v & Hv & Hvt).
  - unfold D. cbn. nia.
  - intros p Hp. destruct (site_pairs_In t _ _ _ _ p Ht Hp) as (m & n & Hm & Hn & ->). cbn [p_left p_right p_op new_pair].
    destruct (is_empty (left m) || is_empty (right n)) eqn:E.
    + intros u Hu. apply in_range_inv2 in Hu. destruct Hu as (r & s & -> & Hr & Hs). unfold G. cbn [nth].
      destruct (unravel3 _ _ _ _ Hr) as (x & i & z & Hx & Hi & Hz & _ & ->). destruct (unravel3 _ _ _ _ Hs) as (y & j & w & Hy & Hj & Hw & _ & ->).
      cbn [nth p_left p_right]. apply (LRempty m n); assumption.
    + apply orb_false_iff in E. destruct E as (E1 & E2).
      destruct (L_full m Hm E1) as (DL & _ & GL). destruct (R_full n Hn E2) as (DR & _ & GR).
      fold (blk t m n). pose proof (blk_dims t m n l d d c Ht) as DB.
      unfold qf_compose. unfold dim at 1 2. rewrite DR. cbn [nth Nat.eqb andb].
      replace (dim (left m) 2) with ra by (unfold dim; rewrite DL; reflexivity). replace (dim (left m) 3) with rb by (unfold dim; rewrite DL; reflexivity).
      replace (dim (right n) 0) with ca by (unfold dim; rewrite DR; reflexivity). replace (dim (right n) 1) with cb by (unfold dim; rewrite DR; reflexivity).
      eexists. split; [reflexivity|]. split; [apply wf_mk|].
      set (RR := reshape (right n) [ca; cb]). set (LL := reshape (left m) [ra; rb]).
      assert (D1 : dims (kron RR (blk t m n)) = [ca * d; cb * d]%nat) by (apply dims_kron; [reflexivity|exact DB]).
      split; [rewrite (dims_kron _ _ _ _ ra rb D1); [unfold D; rewrite !mult_comm3; reflexivity|reflexivity]|].
      intros u Hu. apply in_range_inv2 in Hu. destruct Hu as (r & s & -> & Hr & Hs). unfold G. cbn [nth].
      destruct (unravel3 _ _ _ _ Hr) as (x & i & z & Hx & Hi & Hz & -> & ->). destruct (unravel3 _ _ _ _ Hs) as (y & j & w & Hy & Hj & Hw & -> & ->).
      cbn [nth p_left p_right p_op new_pair].
      rewrite (get_kron _ LL (ca * d)%nat (cb * d)%nat ra rb); try assumption; try reflexivity; try nia.
      rewrite (get_kron RR (blk t m n) ca cb d d); try assumption; try reflexivity.
      unfold RR, LL. rewrite (get_reshape (right n) _ _ [z; w; 0; 0]%nat) by (rewrite DR; cbn; ring).
      rewrite (get_reshape (left m) _ _ [0; 0; x; y]%nat) by (rewrite DL; cbn; ring). rewrite GL, GR by assumption. unfold blk, new_pair. cbn [p_op]. ring.
  - exists v. split; [exact Hv|]. eapply vten_ext; [exact Hvt|]. intros u Hu. apply in_range_inv2 in Hu. destruct Hu as (r & s & -> & Hr & Hs).
    destruct (unravel3 _ _ _ _ Hr) as (x & i & z & Hx & Hi & Hz & _ & E1). destruct (unravel3 _ _ _ _ Hs) as (y & j & w & Hy & Hj & Hw & _ & E2).
    rewrite (lsum_pairs t l d d c _ Ht).
    + unfold mform1, form1, G. cbn [nth]. rewrite E1, E2. cbn [nth]. apply sum_ext. intros m Hm. apply sum_ext. intros n Hn. cbn [p_left p_right new_pair].
      f_equal. f_equal. fold (new_pair m n t). fold (blk t m n). rewrite (blk_get t m n i j l d d c) by assumption. reflexivity.
    + intros p Hp. unfold G. cbn [nth]. rewrite E1, E2. cbn [nth]. rewrite Hp by assumption. ring.
Qed.

(** apply_one_site_matrix *)
Lemma apply_one_vten P : dims P = [rb; d; cb] ->
  exists v, add_pairs (site_pairs t) (fun p => left (p_left p)) (fun p => right (p_right p)) (fun L op R =>
       Ok (fold (fold (reshape L [dim L 2; dim L 3]) 1 (foldin op 1 P 1) 0) 2 (reshape R [dim R 0; dim R 1]) 1)) = Ok v /\
    vten [ra; d; ca] v (fun u => sumcfg [rb; d; cb] (fun s =>
      form1 (nth 0 u 0%nat) (nth 1 u 0%nat) (nth 2 u 0%nat) (nth 0 s 0%nat) (nth 1 s 0%nat) (nth 2 s 0%nat) * get P s)).
Proof.
  intros HP.
  set (G := fun (p : qpair) (u : list nat) => sumcfg [rb; d; cb] (fun s =>
    LF (p_left p) (nth 0 u 0%nat) (nth 0 s 0%nat) * get (p_op p) [nth 1 u 0%nat; nth 1 s 0%nat] * RF (p_right p) (nth 2 u 0%nat) (nth 2 s 0%nat) * get P s)).
  match goal with |- context [add_pairs _ _ _ ?T] => set (TT := T) end.
  destruct (add_pairs_value [ra; d; ca] (site_pairs t) (fun p => left (p_left p)) (fun p => right (p_right p)) TT G) as (v & Hv & Hvt).
  - cbn. nia.
  - intros p Hp. destruct (site_pairs_In t _ _ _ _ p Ht Hp) as (m & n & Hm & Hn & ->). change (p_op (new_pair m n t)) with (blk t m n). change (p_left (new_pair m n t)) with m. change (p_right (new_pair m n t)) with n.
    destruct (is_empty (left m) || is_empty (right n)) eqn:E.
    + intros u Hu. apply in_range_inv3 in Hu. destruct Hu as (x & i & z & -> & Hx & Hi & Hz). unfold G. apply sumcfg_zero. intros s Hs.
      apply in_range_inv3 in Hs. destruct Hs as (y & j & w & -> & Hy & Hj & Hw). cbn [nth p_left p_right].
      rewrite (LRempty m n) by assumption. ring.
    + apply orb_false_iff in E. destruct E as (E1 & E2).
      destruct (L_full m Hm E1) as (DL & _ & GL). destruct (R_full n Hn E2) as (DR & _ & GR).
      pose proof (blk_dims t m n l d d c Ht) as DB. unfold TT. cbv beta.
      replace (dim (left m) 2) with ra by (unfold dim; rewrite DL; reflexivity). replace (dim (left m) 3) with rb by (unfold dim; rewrite DL; reflexivity).
      replace (dim (right n) 0) with ca by (unfold dim; rewrite DR; reflexivity). replace (dim (right n) 1) with cb by (unfold dim; rewrite DR; reflexivity).
      eexists. split; [reflexivity|]. split; [apply wf_mk|].
      set (X := foldin (blk t m n) 1 P 1). assert (DX : dims X = [rb; d; cb]) by (unfold X, foldin; cbn [dims mk]; rewrite HP, DB; reflexivity).
      set (Y := fold (reshape (left m) [ra; rb]) 1 X 0). assert (DY : dims Y = [ra; d; cb]) by (unfold Y, fold; cbn [dims mk reshape remove_nth]; rewrite DX; reflexivity).
      split; [unfold fold at 1; rewrite dims_mk, DY; reflexivity|]. 
      intros u Hu. apply in_range_inv3 in Hu. destruct Hu as (x & i & z & -> & Hx & Hi & Hz).
      unfold fold, rank, dim. cbn [dims reshape]. rewrite DY. cbn [remove_nth app length Nat.sub nth].
      rewrite get_mk by (apply in_range_3; assumption). cbn [firstn skipn insert_nth].
      transitivity (sum cb (fun w => sum rb (fun y => LF m x y * sum d (fun j => get (blk t m n) [i; j] * get P [y; j; w])) * RF n z w)).
      * apply sum_ext. intros w Hw. rewrite (get_reshape (right n) _ _ [z; w; 0; 0]%nat) by (rewrite DR; cbn; ring). rewrite GR by assumption. f_equal.
        unfold Y, fold, rank, dim. cbn [dims reshape]. rewrite DX. cbn [remove_nth app length Nat.sub nth].
        rewrite get_mk by (apply in_range_3; assumption). cbn [firstn skipn insert_nth]. apply sum_ext. intros y Hy.
        rewrite (get_reshape (left m) _ _ [0; 0; x; y]%nat) by (rewrite DL; cbn; ring). rewrite GL by assumption. f_equal.
        unfold X, foldin, rank, dim. rewrite HP, DB. cbn [remove_nth app length Nat.sub nth firstn skipn].
        rewrite get_mk by (apply in_range_3; assumption). cbn [firstn skipn insert_nth app]. reflexivity.
      * unfold G. cbn [sumcfg nth]. change (p_op (new_pair m n t)) with (blk t m n). change (p_left (new_pair m n t)) with m. change (p_right (new_pair m n t)) with n.
        transitivity (sum cb (fun w => sum rb (fun y => sum d (fun j => LF m x y * get (blk t m n) [i; j] * RF n z w * get P [y; j; w])))).
        { apply sum_ext. intros w Hw. rewrite sum_mul_r. apply sum_ext. intros y Hy. rewrite sum_mul_l, sum_mul_r. apply sum_ext. intros j Hj. ring. }
        rewrite sum_swap. apply sum_ext. intros y Hy. rewrite sum_swap. reflexivity.
  - exists v. split; [exact Hv|]. eapply vten_ext; [exact Hvt|]. intros u Hu. apply in_range_inv3 in Hu. destruct Hu as (x & i & z & -> & Hx & Hi & Hz).
    rewrite (lsum_pairs t l d d c _ Ht).
    + unfold G, form1. cbn [nth].
      transitivity (sum l (fun m => sumcfg [rb; d; cb] (fun s => sum c (fun n => LF m x (nth 0 s 0%nat) * get t [m; i; nth 1 s 0%nat; n] * RF n z (nth 2 s 0%nat) * get P s)))).
      * apply sum_ext. intros m Hm. rewrite <- sumcfg_sum_swap. apply sumcfg_ext. intros s Hs. apply sum_ext. intros n Hn.
        apply in_range_inv3 in Hs. destruct Hs as (y & j & w & -> & Hy & Hj & Hw). cbn [nth p_left p_right]. fold (blk t m n).
        rewrite (blk_get t m n i j l d d c) by assumption. reflexivity.
      * rewrite <- sumcfg_sum_swap. apply sumcfg_ext. intros s Hs. rewrite sum_mul_r. apply sum_ext. intros m Hm. rewrite sum_mul_r. reflexivity.
    + intros p Hp. unfold G. apply sumcfg_zero. intros s Hs. apply in_range_inv3 in Hs. destruct Hs as (y & j & w & -> & Hy & Hj & Hw). cbn [nth].
      rewrite Hp by assumption. ring.
Qed.
End OneSite.

(** Pairs of two sites *)
Section TwoSites.
Variables (t1 t2 : tensor) (l k d1 d2 c ra rb ca cb : nat).
Variables (left right : nat -> tensor) (LF RF : nat -> nat -> nat -> K).
Hypothesis Ht1 : dims t1 = [l; d1; d1; k].
Hypothesis Ht2 : dims t2 = [k; d2; d2; c].
Hypothesis Hpos : (0 < ra /\ 0 < rb /\ 0 < ca /\ 0 < cb /\ 0 < d1 /\ 0 < d2)%nat.
Hypothesis HL : forall m, (m < l)%nat -> vten [1; 1; ra; rb]%nat (left m) (lenv_of (LF m)).
Hypothesis HR : forall n, (n < c)%nat -> vten [ca; cb; 1; 1]%nat (right n) (renv_of (RF n)).

Definition form2 (x i1 i2 z y j1 j2 w : nat) : K :=
  sum l (fun m => sum k (fun h => sum c (fun n => LF m x y * (get t1 [m; i1; j1; h] * get t2 [h; i2; j2; n]) * RF n z w))).

Lemma unravel4 a b b' e r : (r < a * (b * (b' * (e * 1))))%nat -> exists x i j z, (x < a)%nat /\ (i < b)%nat /\ (j < b')%nat /\ (z < e)%nat /\
  r = (x + a * (i + b * (j + b' * z)))%nat /\ unravel [a; b; b'; e] r = [x; i; j; z].
Proof.
  intros Hr. change (a * (b * (b' * (e * 1))))%nat with (nprod [a; b; b'; e]) in Hr. pose proof (unravel_in_range _ _ Hr) as H. pose proof (offset_unravel _ _ Hr) as H2.
  apply in_range_inv4 in H. destruct H as (x & i & j & z & E & Hx & Hi & Hj & Hz). exists x, i, j, z. rewrite E in *. repeat split; auto. cbn in H2. rewrite <- H2. ring.
Qed.

Definition mform2 (u : list nat) : K :=
  let r := unravel [ra; d1; d2; ca] (nth 0 u 0%nat) in let s := unravel [rb; d1; d2; cb] (nth 1 u 0%nat) in
  form2 (nth 0 r 0%nat) (nth 1 r 0%nat) (nth 2 r 0%nat) (nth 3 r 0%nat) (nth 0 s 0%nat) (nth 1 s 0%nat) (nth 2 s 0%nat) (nth 3 s 0%nat).

(** The value of one pair of pairs, and its sum *)
Definition G2 (p1 p2 : qpair) (x i1 i2 z y j1 j2 w : nat) : K :=
  LF (p_left p1) x y * (get (p_op p1) [i1; j1] * get (p_op p2) [i2; j2]) * RF (p_right p2) z w.

Lemma lsum_G2 x i1 i2 z y j1 j2 w : (i1 < d1)%nat -> (j1 < d1)%nat -> (i2 < d2)%nat -> (j2 < d2)%nat ->
  lsum (site_pairs t1) (fun p1 => lsum (site_pairs t2) (fun p2 => if Nat.eqb (p_right p1) (p_left p2) then G2 p1 p2 x i1 i2 z y j1 j2 w else 0)) =
  form2 x i1 i2 z y j1 j2 w.
Proof.
  intros Hi1 Hj1 Hi2 Hj2. rewrite (lsum_pairs t1 l d1 d1 k _ Ht1).
  2:{ intros p Hp. apply lsum_zero. intros q _. destruct (Nat.eqb _ _); [|reflexivity]. unfold G2. rewrite Hp by assumption. ring. }
  unfold form2. apply sum_ext. intros m Hm. apply sum_ext. intros h Hh.
  rewrite (lsum_pairs t2 k d2 d2 c _ Ht2).
  2:{ intros p Hp. destruct (Nat.eqb _ _); [|reflexivity]. unfold G2. rewrite Hp by assumption. ring. }
  transitivity (sum k (fun h' => delta h h' * sum c (fun n => LF m x y * (get t1 [m; i1; j1; h] * get t2 [h'; i2; j2; n]) * RF n z w))).
  2:{ rewrite sum_delta_l' by exact Hh. reflexivity. }
  apply sum_ext. intros h' Hh'. change (p_right (new_pair m h t1)) with h.
  unfold delta. destruct (Nat.eqb_spec h h') as [->|Hne].
  - match goal with |- _ = 1 * ?X => transitivity X; [|ring] end. apply sum_ext. intros n Hn. change (p_left (new_pair h' n t2)) with h'. rewrite Nat.eqb_refl.
    unfold G2. change (p_op (new_pair m h' t1)) with (blk t1 m h'). change (p_op (new_pair h' n t2)) with (blk t2 h' n).
    change (p_left (new_pair m h' t1)) with m. change (p_right (new_pair h' n t2)) with n.
    rewrite (blk_get t1 m h' i1 j1 l d1 d1 k) by assumption. rewrite (blk_get t2 h' n i2 j2 k d2 d2 c) by assumption. reflexivity.
  - match goal with |- _ = 0 * ?X => transitivity 0; [|ring] end. apply sum_zero. intros n Hn. change (p_left (new_pair h' n t2)) with h'.
    destruct (Nat.eqb_spec h h'); [congruence|reflexivity].
Qed.

Lemma mult_comm4 a b b' e : (a * (b * (b' * (e * 1))) = e * b' * b * a)%nat. Proof. ring. Qed.

Lemma two_matrix_vten :
  exists v, add_pairs2 (site_pairs t1) (site_pairs t2) (fun p => left (p_left p)) (fun p => right (p_right p)) qf_compose4 = Ok v /\
    vten [ra * (d1 * (d2 * (ca * 1))); rb * (d1 * (d2 * (cb * 1)))]%nat v mform2.
Proof.
  set (D := [ra * (d1 * (d2 * (ca * 1))); rb * (d1 * (d2 * (cb * 1)))]%nat).
  set (G := fun (p1 p2 : qpair) (u : list nat) => 
    let r := unravel [ra; d1; d2; ca] (nth 0 u 0%nat) in let s := unravel [rb; d1; d2; cb] (nth 1 u 0%nat) in
    G2 p1 p2 (nth 0 r 0%nat) (nth 1 r 0%nat) (nth 2 r 0%nat) (nth 3 r 0%nat) (nth 0 s 0%nat) (nth 1 s 0%nat) (nth 2 s 0%nat) (nth 3 s 0%nat)).
  destruct (add_pairs2_value D (site_pairs t1) (site_pairs t2) (fun p => left (p_left p)) (fun p => right (p_right p)) qf_compose4 G) as (v & Hv & Hvt).
  - unfold D. cbn. nia.
  - intros p1 p2 Hp1 Hp2. destruct (site_pairs_In t1 _ _ _ _ p1 Ht1 Hp1) as (m & h & Hm & Hh & ->).
    destruct (site_pairs_In t2 _ _ _ _ p2 Ht2 Hp2) as (h' & n & Hh' & Hn & ->).
    change (p_op (new_pair m h t1)) with (blk t1 m h). change (p_op (new_pair h' n t2)) with (blk t2 h' n).
    change (p_left (new_pair m h t1)) with m. change (p_right (new_pair h' n t2)) with n.
    destruct (is_empty (left m) || is_empty (right n)) eqn:E.
    + intros u Hu. apply in_range_inv2 in Hu. destruct Hu as (r & s & -> & Hr & Hs). unfold G. cbn [nth].
      destruct (unravel4 _ _ _ _ _ Hr) as (x & i1 & i2 & z & Hx & Hi1 & Hi2 & Hz & _ & ->). destruct (unravel4 _ _ _ _ _ Hs) as (y & j1 & j2 & w & Hy & Hj1 & Hj2 & Hw & _ & ->).
      cbn [nth]. unfold G2. change (p_left (new_pair m h t1)) with m. change (p_right (new_pair h' n t2)) with n.
      apply (LRempty l c ra rb ca cb left right LF RF HL HR m n); assumption.
    + apply orb_false_iff in E. destruct E as (E1 & E2).
      destruct (L_full l ra rb left LF HL m Hm E1) as (DL & _ & GL). destruct (R_full c ca cb right RF HR n Hn E2) as (DR & _ & GR).
      pose proof (blk_dims t1 m h l d1 d1 k Ht1) as DB1. pose proof (blk_dims t2 h' n k d2 d2 c Ht2) as DB2.
      unfold qf_compose4. unfold dim at 1 2. rewrite DR. cbn [nth Nat.eqb andb].
      replace (dim (left m) 2) with ra by (unfold dim; rewrite DL; reflexivity). replace (dim (left m) 3) with rb by (unfold dim; rewrite DL; reflexivity).
      replace (dim (right n) 0) with ca by (unfold dim; rewrite DR; reflexivity). replace (dim (right n) 1) with cb by (unfold dim; rewrite DR; reflexivity).
      eexists. split; [reflexivity|]. split; [apply wf_mk|].
      set (RR := reshape (right n) [ca; cb]). set (LL := reshape (left m) [ra; rb]).
      assert (D1 : dims (kron RR (blk t2 h' n)) = [ca * d2; cb * d2]%nat) by (apply dims_kron; [reflexivity|exact DB2]).
      assert (D2 : dims (kron (kron RR (blk t2 h' n)) (blk t1 m h)) = [ca * d2 * d1; cb * d2 * d1]%nat) by (apply dims_kron; [exact D1|exact DB1]).
      split; [rewrite (dims_kron _ _ _ _ ra rb D2); [unfold D; rewrite !mult_comm4; reflexivity|reflexivity]|].
      intros u Hu. apply in_range_inv2 in Hu. destruct Hu as (r & s & -> & Hr & Hs). unfold G. cbn [nth].
      destruct (unravel4 _ _ _ _ _ Hr) as (x & i1 & i2 & z & Hx & Hi1 & Hi2 & Hz & -> & ->). destruct (unravel4 _ _ _ _ _ Hs) as (y & j1 & j2 & w & Hy & Hj1 & Hj2 & Hw & -> & ->).
      cbn [nth].
      rewrite (get_kron _ LL (ca * d2 * d1)%nat (cb * d2 * d1)%nat ra rb); try assumption; try reflexivity; try nia.
      rewrite (get_kron _ (blk t1 m h) (ca * d2)%nat (cb * d2)%nat d1 d1); try assumption; try reflexivity; try nia.
      rewrite (get_kron RR (blk t2 h' n) ca cb d2 d2); try assumption; try reflexivity.
      unfold RR, LL. rewrite (get_reshape (right n) _ _ [z; w; 0; 0]%nat) by (rewrite DR; cbn; ring).
      rewrite (get_reshape (left m) _ _ [0; 0; x; y]%nat) by (rewrite DL; cbn; ring). rewrite GL, GR by assumption.
      unfold G2. change (p_op (new_pair m h t1)) with (blk t1 m h). change (p_op (new_pair h' n t2)) with (blk t2 h' n).
      change (p_left (new_pair m h t1)) with m. change (p_right (new_pair h' n t2)) with n. ring.
  - exists v. split; [exact Hv|]. eapply vten_ext; [exact Hvt|]. intros u Hu. apply in_range_inv2 in Hu. destruct Hu as (r & s & -> & Hr & Hs).
    destruct (unravel4 _ _ _ _ _ Hr) as (x & i1 & i2 & z & Hx & Hi1 & Hi2 & Hz & _ & E1). destruct (unravel4 _ _ _ _ _ Hs) as (y & j1 & j2 & w & Hy & Hj1 & Hj2 & Hw & _ & E2).
    unfold G, mform2. cbn [nth]. rewrite E1, E2. cbn [nth]. apply lsum_G2; assumption.
Qed.

Lemma apply_two_vten P : dims P = [rb; d1; d2; cb] ->
  exists v, add_pairs2 (site_pairs t1) (site_pairs t2) (fun p => left (p_left p)) (fun p => right (p_right p)) (fun L op1 op2 R =>
         Ok (fold (fold (reshape L [dim L 2; dim L 3]) 1 (foldin op1 1 (foldin op2 1 P 2) 1) 0) 3
                  (reshape R [dim R 0; dim R 1]) 1)) = Ok v /\
    vten [ra; d1; d2; ca] v (fun u => sumcfg [rb; d1; d2; cb] (fun s =>
      form2 (nth 0 u 0%nat) (nth 1 u 0%nat) (nth 2 u 0%nat) (nth 3 u 0%nat) (nth 0 s 0%nat) (nth 1 s 0%nat) (nth 2 s 0%nat) (nth 3 s 0%nat) * get P s)).
Proof.
  intros HP.
  set (G := fun (p1 p2 : qpair) (u : list nat) => sumcfg [rb; d1; d2; cb] (fun s =>
    G2 p1 p2 (nth 0 u 0%nat) (nth 1 u 0%nat) (nth 2 u 0%nat) (nth 3 u 0%nat) (nth 0 s 0%nat) (nth 1 s 0%nat) (nth 2 s 0%nat) (nth 3 s 0%nat) * get P s)).
  match goal with |- context [add_pairs2 _ _ _ _ ?T] => set (TT := T) end.
  destruct (add_pairs2_value [ra; d1; d2; ca] (site_pairs t1) (site_pairs t2) (fun p => left (p_left p)) (fun p => right (p_right p)) TT G) as (v & Hv & Hvt).
  - cbn. nia.
  - intros p1 p2 Hp1 Hp2. destruct (site_pairs_In t1 _ _ _ _ p1 Ht1 Hp1) as (m & h & Hm & Hh & ->).
    destruct (site_pairs_In t2 _ _ _ _ p2 Ht2 Hp2) as (h' & n & Hh' & Hn & ->).
    change (p_op (new_pair m h t1)) with (blk t1 m h). change (p_op (new_pair h' n t2)) with (blk t2 h' n).
    change (p_left (new_pair m h t1)) with m. change (p_right (new_pair h' n t2)) with n.
    destruct (is_empty (left m) || is_empty (right n)) eqn:E.
    + intros u Hu. apply in_range_inv4 in Hu. destruct Hu as (x & i1 & i2 & z & -> & Hx & Hi1 & Hi2 & Hz). unfold G. apply sumcfg_zero. intros s Hs.
      apply in_range_inv4 in Hs. destruct Hs as (y & j1 & j2 & w & -> & Hy & Hj1 & Hj2 & Hw). cbn [nth]. unfold G2.
      change (p_left (new_pair m h t1)) with m. change (p_right (new_pair h' n t2)) with n.
      rewrite (LRempty l c ra rb ca cb left right LF RF HL HR m n) by assumption. ring.
    + apply orb_false_iff in E. destruct E as (E1 & E2).
      destruct (L_full l ra rb left LF HL m Hm E1) as (DL & _ & GL). destruct (R_full c ca cb right RF HR n Hn E2) as (DR & _ & GR).
      pose proof (blk_dims t1 m h l d1 d1 k Ht1) as DB1. pose proof (blk_dims t2 h' n k d2 d2 c Ht2) as DB2. unfold TT. cbv beta.
      replace (dim (left m) 2) with ra by (unfold dim; rewrite DL; reflexivity). replace (dim (left m) 3) with rb by (unfold dim; rewrite DL; reflexivity).
      replace (dim (right n) 0) with ca by (unfold dim; rewrite DR; reflexivity). replace (dim (right n) 1) with cb by (unfold dim; rewrite DR; reflexivity).
      eexists. split; [reflexivity|]. split; [apply wf_mk|].
      set (X2 := foldin (blk t2 h' n) 1 P 2). assert (DX2 : dims X2 = [rb; d1; d2; cb]) by (unfold X2, foldin; cbn [dims mk]; rewrite HP, DB2; reflexivity).
      set (X := foldin (blk t1 m h) 1 X2 1). assert (DX : dims X = [rb; d1; d2; cb]) by (unfold X, foldin; rewrite dims_mk, DX2, DB1; reflexivity).
      set (Y := fold (reshape (left m) [ra; rb]) 1 X 0). assert (DY : dims Y = [ra; d1; d2; cb]) by (unfold Y, fold; rewrite dims_mk, dims_reshape, DX; reflexivity).
      split; [unfold fold at 1; rewrite dims_mk, DY; reflexivity|].
      intros u Hu. apply in_range_inv4 in Hu. destruct Hu as (x & i1 & i2 & z & -> & Hx & Hi1 & Hi2 & Hz).
      unfold fold, rank, dim. rewrite dims_reshape, DY. cbn [remove_nth app length Nat.sub nth].
      rewrite get_mk by (apply in_range_4; assumption). cbn [firstn skipn insert_nth].
      transitivity (sum cb (fun w => sum rb (fun y => LF m x y * sum d1 (fun j1 => get (blk t1 m h) [i1; j1] * sum d2 (fun j2 => get (blk t2 h' n) [i2; j2] * get P [y; j1; j2; w]))) * RF n z w)).
      * apply sum_ext. intros w Hw. rewrite (get_reshape (right n) _ _ [z; w; 0; 0]%nat) by (rewrite DR; cbn; ring). rewrite GR by assumption. f_equal.
        unfold Y, fold, rank, dim. rewrite dims_reshape, DX. cbn [remove_nth app length Nat.sub nth].
        rewrite get_mk by (apply in_range_4; assumption). cbn [firstn skipn insert_nth]. apply sum_ext. intros y Hy.
        rewrite (get_reshape (left m) _ _ [0; 0; x; y]%nat) by (rewrite DL; cbn; ring). rewrite GL by assumption. f_equal.
        unfold X, foldin at 1, rank, dim. rewrite DX2, DB1. cbn [remove_nth app length Nat.sub nth firstn skipn].
        rewrite get_mk by (apply in_range_4; assumption). cbn [firstn skipn insert_nth app]. apply sum_ext. intros j1 Hj1. f_equal.
        unfold X2, foldin, rank, dim. rewrite HP, DB2. cbn [remove_nth app length Nat.sub nth firstn skipn].
        rewrite get_mk by (apply in_range_4; assumption). cbn [firstn skipn insert_nth app]. reflexivity.
      * unfold G, G2. cbn [sumcfg nth]. change (p_op (new_pair m h t1)) with (blk t1 m h). change (p_op (new_pair h' n t2)) with (blk t2 h' n).
        change (p_left (new_pair m h t1)) with m. change (p_right (new_pair h' n t2)) with n.
        transitivity (sum cb (fun w => sum rb (fun y => sum d1 (fun j1 => sum d2 (fun j2 => LF m x y * (get (blk t1 m h) [i1; j1] * get (blk t2 h' n) [i2; j2]) * RF n z w * get P [y; j1; j2; w]))))).
        { apply sum_ext. intros w Hw. rewrite sum_mul_r. apply sum_ext. intros y Hy. rewrite sum_mul_l, sum_mul_r. apply sum_ext. intros j1 Hj1.
          rewrite sum_mul_l, sum_mul_l, sum_mul_r. apply sum_ext. intros j2 Hj2. ring. }
        rewrite sum_swap. apply sum_ext. intros y Hy. rewrite sum_swap. apply sum_ext. intros j1 Hj1. rewrite sum_swap. reflexivity.
  - exists v. split; [exact Hv|]. eapply vten_ext; [exact Hvt|]. intros u Hu. apply in_range_inv4 in Hu. destruct Hu as (x & i1 & i2 & z & -> & Hx & Hi1 & Hi2 & Hz).
    unfold G. cbn [nth].
    transitivity (sumcfg [rb; d1; d2; cb] (fun s => lsum (site_pairs t1) (fun p1 => lsum (site_pairs t2) (fun p2 =>
      if Nat.eqb (p_right p1) (p_left p2) then G2 p1 p2 x i1 i2 z (nth 0 s 0%nat) (nth 1 s 0%nat) (nth 2 s 0%nat) (nth 3 s 0%nat) else 0)) * get P s)).
    + assert (Hsw : forall A (ll : list A) (F : A -> list nat -> K), lsum ll (fun p => sumcfg [rb; d1; d2; cb] (F p)) = sumcfg [rb; d1; d2; cb] (fun s => lsum ll (fun p => F p s))).
      { intros A ll F. induction ll as [|a ll IH]; [cbn [lsum]; rewrite sumcfg_0; reflexivity|]. cbn [lsum]. rewrite IH, <- sumcfg_add. reflexivity. }
      transitivity (lsum (site_pairs t1) (fun p1 => lsum (site_pairs t2) (fun p2 => sumcfg [rb; d1; d2; cb] (fun s =>
        (if Nat.eqb (p_right p1) (p_left p2) then G2 p1 p2 x i1 i2 z (nth 0 s 0%nat) (nth 1 s 0%nat) (nth 2 s 0%nat) (nth 3 s 0%nat) else 0) * get P s)))).
      * apply lsum_ext. intros p1 _. apply lsum_ext. intros p2 _. destruct (Nat.eqb _ _); [reflexivity|]. rewrite sumcfg_zero; [reflexivity|]. intros; ring.
      * rewrite (lsum_ext _ _ (fun p1 => sumcfg [rb; d1; d2; cb] (fun s => lsum (site_pairs t2) (fun p2 => 
          (if Nat.eqb (p_right p1) (p_left p2) then G2 p1 p2 x i1 i2 z (nth 0 s 0%nat) (nth 1 s 0%nat) (nth 2 s 0%nat) (nth 3 s 0%nat) else 0) * get P s)))) by (intros; apply Hsw).
        rewrite Hsw. apply sumcfg_ext. intros s _.
        assert (Hml : forall A (ll : list A) (F : A -> K) e, lsum ll F * e = lsum ll (fun p => F p * e)).
        { intros A ll F e. induction ll as [|a ll IH]; cbn [lsum]; [ring|rewrite <- IH; ring]. }
        rewrite Hml. apply lsum_ext. intros p1 _. rewrite Hml. reflexivity.
    + apply sumcfg_ext. intros s Hs. apply in_range_inv4 in Hs. destruct Hs as (y & j1 & j2 & w & -> & Hy & Hj1 & Hj2 & Hw). cbn [nth].
      rewrite lsum_G2 by assumption. reflexivity.
Qed.

(** The diagonal, for square environments *)
Lemma two_diag_vten : ra = rb -> ca = cb ->
  exists v, add_pairs2 (site_pairs t1) (site_pairs t2) (fun p => left (p_left p)) (fun p => right (p_right p)) (fun L op1 op2 R =>
         Ok (kron2_vec (kron2_vec (take_diag (reshape L [dim L 2; dim L 3])) (take_diag op1))
                       (kron2_vec (take_diag op2) (take_diag (reshape R [dim R 0; dim R 1]))))) = Ok v /\
    vten [ra * (d1 * (d2 * (ca * 1)))]%nat v (fun u => mform2 [nth 0 u 0%nat; nth 0 u 0%nat]).
Proof.
  intros Era Eca.
  set (G := fun (p1 p2 : qpair) (u : list nat) => let r := unravel [ra; d1; d2; ca] (nth 0 u 0%nat) in
    G2 p1 p2 (nth 0 r 0%nat) (nth 1 r 0%nat) (nth 2 r 0%nat) (nth 3 r 0%nat) (nth 0 r 0%nat) (nth 1 r 0%nat) (nth 2 r 0%nat) (nth 3 r 0%nat)).
  match goal with |- context [add_pairs2 _ _ _ _ ?T] => set (TT := T) end.
  assert (H1i : forall u, in_range [ra * (d1 * (d2 * (ca * 1)))]%nat u -> exists r, u = [r] /\ (r < ra * (d1 * (d2 * (ca * 1))))%nat).
  { intros u Hu. apply in_range_cons_inv in Hu. destruct Hu as (r & u' & -> & Hr & Hu). apply in_range_nil_inv in Hu. subst. eauto. }
  destruct (add_pairs2_value [ra * (d1 * (d2 * (ca * 1)))]%nat (site_pairs t1) (site_pairs t2) (fun p => left (p_left p)) (fun p => right (p_right p)) TT G) as (v & Hv & Hvt).
  - cbn. nia.
  - intros p1 p2 Hp1 Hp2. destruct (site_pairs_In t1 _ _ _ _ p1 Ht1 Hp1) as (m & h & Hm & Hh & ->).
    destruct (site_pairs_In t2 _ _ _ _ p2 Ht2 Hp2) as (h' & n & Hh' & Hn & ->).
    change (p_op (new_pair m h t1)) with (blk t1 m h). change (p_op (new_pair h' n t2)) with (blk t2 h' n).
    change (p_left (new_pair m h t1)) with m. change (p_right (new_pair h' n t2)) with n.
    destruct (is_empty (left m) || is_empty (right n)) eqn:E.
    + intros u Hu. destruct (H1i u Hu) as (r & -> & Hr). unfold G. cbn [nth].
      destruct (unravel4 _ _ _ _ _ Hr) as (x & i1 & i2 & z & Hx & Hi1 & Hi2 & Hz & _ & ->). cbn [nth]. unfold G2.
      change (p_left (new_pair m h t1)) with m. change (p_right (new_pair h' n t2)) with n.
      apply (LRempty l c ra rb ca cb left right LF RF HL HR m n); try assumption; lia.
    + apply orb_false_iff in E. destruct E as (E1 & E2).
      destruct (L_full l ra rb left LF HL m Hm E1) as (DL & _ & GL). destruct (R_full c ca cb right RF HR n Hn E2) as (DR & _ & GR).
      pose proof (blk_dims t1 m h l d1 d1 k Ht1) as DB1. pose proof (blk_dims t2 h' n k d2 d2 c Ht2) as DB2. unfold TT. cbv beta.
      replace (dim (left m) 2) with ra by (unfold dim; rewrite DL; reflexivity). replace (dim (left m) 3) with rb by (unfold dim; rewrite DL; reflexivity).
      replace (dim (right n) 0) with ca by (unfold dim; rewrite DR; reflexivity). replace (dim (right n) 1) with cb by (unfold dim; rewrite DR; reflexivity).
      rewrite <- Era in *. rewrite <- Eca in *.
      eexists. split; [reflexivity|]. split; [apply wf_mk|].
      set (LL := reshape (left m) [ra; ra]). set (RR := reshape (right n) [ca; ca]).
      assert (T1 : dims (take_diag LL) = [ra]) by (apply dims_take_diag; reflexivity).
      assert (T2 : dims (take_diag RR) = [ca]) by (apply dims_take_diag; reflexivity).
      assert (T3 : dims (take_diag (blk t1 m h)) = [d1]) by (apply dims_take_diag; exact DB1).
      assert (T4 : dims (take_diag (blk t2 h' n)) = [d2]) by (apply dims_take_diag; exact DB2).
      pose proof (dims_kron2_vec _ _ _ _ T1 T3) as T5. pose proof (dims_kron2_vec _ _ _ _ T4 T2) as T6.
      split; [rewrite (dims_kron2_vec _ _ _ _ T5 T6); f_equal; ring|].
      intros u Hu. destruct (H1i u Hu) as (r & -> & Hr). unfold G. cbn [nth].
      destruct (unravel4 _ _ _ _ _ Hr) as (x & i1 & i2 & z & Hx & Hi1 & Hi2 & Hz & -> & ->). cbn [nth].
      replace (x + ra * (i1 + d1 * (i2 + d2 * z)))%nat with ((x + ra * i1) + (ra * d1) * (i2 + d2 * z))%nat by ring.
      rewrite (get_kron2_vec _ _ (ra * d1)%nat (d2 * ca)%nat) by (try assumption; nia).
      rewrite (get_kron2_vec _ _ ra d1), (get_kron2_vec _ _ d2 ca) by assumption.
      rewrite (get_take_diag LL ra), (get_take_diag RR ca), (get_take_diag _ d1), (get_take_diag _ d2) by (try assumption; reflexivity).
      unfold RR, LL. rewrite (get_reshape (right n) _ _ [z; z; 0; 0]%nat) by (rewrite DR; cbn; ring).
      rewrite (get_reshape (left m) _ _ [0; 0; x; x]%nat) by (rewrite DL; cbn; ring). rewrite GL, GR by assumption.
      unfold G2. change (p_op (new_pair m h t1)) with (blk t1 m h). change (p_op (new_pair h' n t2)) with (blk t2 h' n).
      change (p_left (new_pair m h t1)) with m. change (p_right (new_pair h' n t2)) with n. ring.
  - exists v. split; [exact Hv|]. eapply vten_ext; [exact Hvt|]. intros u Hu. destruct (H1i u Hu) as (r & -> & Hr).
    destruct (unravel4 _ _ _ _ _ Hr) as (x & i1 & i2 & z & Hx & Hi1 & Hi2 & Hz & _ & E1).
    unfold G, mform2. cbn [nth]. rewrite <- Era, <- Eca. rewrite E1. cbn [nth]. apply lsum_G2; assumption.
Qed.
End TwoSites.
End Facts.
