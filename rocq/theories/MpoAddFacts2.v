(** Correctness of long-range interactions, hopping matrices and product terms *)
From Coq Require Import Bool List Arith ZArith Lia Ring.
From Verif Require Import Scalar ScalarFacts Tensor TensorFacts Spec MpsModel MpsFacts EnvFacts
  ExpectedFacts MpoSpec MpoModel MpoFacts MpoThread MpoAddFacts.
Import ListNotations.
Local Open Scope K_scope.

Section Add.
Context {SC : Scalar}.
Add Ring Kring : k_ring.

Lemma skip_up_spec p s n : let r := skip_up p s n in
  (s <= r <= s + n)%nat /\ (forall k, (s <= k < r)%nat -> p k = true) /\ ((r < s + n)%nat -> p r = false).
Proof.
  cbv zeta. revert s. induction n as [|n IH]; intros s; cbn [skip_up].
  - split; [lia|]. split; [intros; lia|intros; lia].
  - destruct (p s) eqn:E.
    + destruct (IH (S s)) as (H1 & H2 & H3). split; [lia|]. split.
      * intros k Hk. destruct (Nat.eq_dec k s) as [->|]; [exact E|apply H2; lia].
      * intros H. apply H3. lia.
    + split; [lia|]. split; [intros; lia|auto].
Qed.

Lemma skip_down_spec p n : let r := skip_down p n in
  (r <= n)%nat /\ (forall k, (r <= k < n)%nat -> p k = true) /\ (forall r', r = S r' -> p r' = false).
Proof.
  cbv zeta. induction n as [|n IH]; cbn [skip_down].
  - split; [lia|]. split; [intros; lia|intros; lia].
  - destruct (p n) eqn:E.
    + destruct IH as (H1 & H2 & H3). split; [lia|]. split; [|exact H3].
      intros k Hk. destruct (Nat.eq_dec k n) as [->|]; [exact E|apply H2; lia].
    + split; [lia|]. split; [intros; lia|]. intros r' [= <-]. exact E.
Qed.

Lemma has_dim_spec t d : has_dim t d = true -> dims t = [d; d].
Proof.
  unfold has_dim, rank, dim. intros H. apply andb_true_iff in H. destruct H as (H & H3).
  apply andb_true_iff in H. destruct H as (H1 & H2). apply Nat.eqb_eq in H1, H2, H3.
  destruct (dims t) as [|x [|y [|]]]; cbn in *; try lia. subst. reflexivity.
Qed.

Lemma is_zero_get t is : is_zero_tensor t = true -> get t is = 0.
Proof.
  unfold is_zero_tensor, get. intros H. rewrite forallb_forall in H.
  destruct (nth_in_or_default (offset (dims t) is) (data t) 0) as [Hin| ->]; [|reflexivity].
  apply keqb_eq. apply H. exact Hin.
Qed.

Lemma dsb P x y H l : dims P = l -> dims (set_block P x y H) = l. Proof. intros <-. reflexivity. Qed.
Lemma dab P x y H l : dims P = l -> dims (add_block P x y H) = l. Proof. intros <-. reflexivity. Qed.

Ltac td := repeat first
  [ eassumption
  | apply dsb | apply dab
  | apply (dims_change0 _ _ _ _ _ _) | apply (dims_change3 _ _ _ _ _ _)
  | eapply dims_change0 | eapply dims_change3 ].
Ltac gsolve := first [ lia | assumption | td ].
Ltac gets := repeat first
  [ erewrite get_set_block by gsolve
  | erewrite get_add_block by gsolve
  | erewrite get_change_dim0 by gsolve
  | erewrite get_change_dim3 by gsolve ].
Ltac beq := repeat match goal with
  | |- context [Nat.eqb ?x ?y] => destruct (Nat.eqb_spec x y); try lia
  | |- context [Nat.ltb ?x ?y] => destruct (Nat.ltb_spec x y); try lia
  | |- context [Nat.leb ?x ?y] => destruct (Nat.leb_spec x y); try lia
  end.

Definition sgn (sign : option tensor) (k : nat) : nat -> nat -> K :=
  match sign with Some s => mat s | None => delta end.

Lemma nb_in s e k : (s <= k < e)%nat -> nb s e k = Nat.ltb s k /\ nb s e (S k) = Nat.ltb (S k) e.
Proof. intros Hk. unfold nb. split; beq; reflexivity. Qed.

Lemma nb_out s e k : ~ (s <= k < e)%nat -> nb s e k = false /\ nb s e (S k) = false.
Proof. intros Hk. unfold nb. split; beq; try reflexivity; cbn; try reflexivity; exfalso; lia. Qed.

Lemma product_op_ext_ds ds s' f g is js : in_range (skipn s' ds) is -> in_range (skipn s' ds) js ->
  (forall k i j, (s' <= k < length ds)%nat -> (i < nth k ds 0%nat)%nat -> (j < nth k ds 0%nat)%nat -> f k i j = g k i j) ->
  product_op s' f is js = product_op s' g is js.
Proof.
  intros His Hjs Hfg.
  remember (length ds - s')%nat as m eqn:E. revert s' is js E His Hjs Hfg.
  induction m as [|m IH]; intros s' is js E His Hjs Hfg.
  - rewrite skipn_all2 in His, Hjs by lia. apply in_range_nil_inv in His, Hjs. subst. reflexivity.
  - rewrite skipn_nth in His, Hjs by lia.
    apply in_range_cons_inv in His. destruct His as (x & is' & -> & Hx & His).
    apply in_range_cons_inv in Hjs. destruct Hjs as (y & js' & -> & Hy & Hjs).
    cbn [product_op]. rewrite (Hfg s' x y) by (assumption || lia). f_equal.
    apply IH; try assumption; try lia. intros k i' j' Hk. apply Hfg. lia.
Qed.

Section LR.
Variables (ds : list nat) (b : nat -> nat) (O : mpo) (H : list tensor) (i : nat) (sign : option tensor) (s e : nat).
Hypothesis HF : hform ds b O.
Hypothesis Hsi : (s <= i < e)%nat.
Hypothesis He : (e <= length ds)%nat.
Hypothesis HH : forall k, (k < length ds)%nat -> dims (nth k H empty) = [nth k ds 0%nat; nth k ds 0%nat].

Let n := length ds.
Let lc := if Nat.eqb e n then 0%nat else 1%nat.
Let O' := map (fun j => if Nat.leb s j && Nat.ltb j e then long_range_site O H i sign s e lc j else site O j) (seq 0 n).
Let Hm k := mat (nth k H empty).
Let lrU := fun k => if nb s e (S k) && Nat.leb k i then Hm k else fun _ _ => 0.
Let lrT := fun k => if nb s e (S k) && negb (Nat.eqb k i) then
   (fun x y => match sign with Some t => get t [x; y] | None => get (eye (nth k ds 0%nat)) [x; y] end) else fun _ _ => 0.
Let lrC := fun k => if Nat.leb s k && Nat.ltb k e && Nat.leb i k then Hm k else fun _ _ => 0.

Lemma lr_site_dims k : (s <= k < e)%nat ->
  dims (long_range_site O H i sign s e lc k) =
  [(b k + (if nb s e k then 1 else 0))%nat; nth k ds 0%nat; nth k ds 0%nat;
   (b (S k) + (if nb s e (S k) then 1 else 0))%nat] /\ wf (long_range_site O H i sign s e lc k).
Proof.
  intros Hk. pose proof (hf_dims _ _ _ HF k ltac:(lia)) as HD. pose proof (hf_wf _ _ _ HF k ltac:(lia)) as HW.
  unfold long_range_site, nb.
  assert (E0 : dim (site O k) 0 = b k) by (unfold dim; rewrite HD; reflexivity).
  assert (E3 : dim (site O k) 3 = b (S k)) by (unfold dim; rewrite HD; reflexivity).
  rewrite E0, E3.
  beq; cbn [andb negb]; rewrite ?Nat.add_0_r, ?Nat.add_1_r;
    (split; [td|first [apply wf_mk|assumption]]).
Qed.

Lemma lr_site_get k a c x y : (s <= k < e)%nat ->
  (a < b k + (if nb s e k then 1 else 0))%nat -> (c < b (S k) + (if nb s e (S k) then 1 else 0))%nat ->
  (x < nth k ds 0%nat)%nat -> (y < nth k ds 0%nat)%nat ->
  get (long_range_site O H i sign s e lc k) [a; x; y; c] =
  if Nat.eqb a (b k) then
    if Nat.eqb c (b (S k)) then (if Nat.eqb i k then 0 else
       match sign with Some t => get t [x; y] | None => get (eye (nth k ds 0%nat)) [x; y] end)
    else if Nat.eqb c (fin n k) && Nat.leb i k then Hm k x y else 0
  else if Nat.eqb c (b (S k)) then (if Nat.eqb a 0 && Nat.leb k i then Hm k x y else 0)
  else get (site O k) [a; x; y; c].
Proof.
  intros Hk Ha Hc Hx Hy. pose proof (hf_dims _ _ _ HF k ltac:(lia)) as HD.
  unfold long_range_site. unfold nb in Ha, Hc.
  assert (E0 : dim (site O k) 0 = b k) by (unfold dim; rewrite HD; reflexivity).
  assert (E3 : dim (site O k) 3 = b (S k)) by (unfold dim; rewrite HD; reflexivity).
  assert (EH : dim (nth k H empty) 0 = nth k ds 0%nat) by (unfold dim; rewrite HH by lia; reflexivity).
  rewrite E0, E3, EH.
  pose proof (hf_b0 _ _ _ HF). pose proof (hf_bn _ _ _ HF).
  assert (Hb0 : (0 < b k)%nat) by (apply (hform_bpos ds b O HF); lia).
  assert (Hb1 : (0 < b (S k))%nat) by (apply (hform_bpos ds b O HF); lia).
  assert (Hbk : (s < k -> 2 <= b k)%nat) by (intros; apply (hf_b _ _ _ HF); lia).
  assert (Hbk' : (S k < e -> 2 <= b (S k))%nat) by (intros; apply (hf_b _ _ _ HF); lia).
  assert (Hfin : (fin n k < b (S k))%nat) by (apply (fin_lt ds b O HF); unfold n; lia).
  assert (Hcl : (S k < e -> fin n k = 1)%nat) by (intros; unfold fin, n; beq; reflexivity).
  assert (Hlc : (S k = e -> fin n k = lc)%nat) by (intros; unfold lc, fin, n; beq; reflexivity).
  unfold Hm, mat.
  replace (Nat.ltb k e) with true in Ha by (beq; reflexivity).
  replace (Nat.ltb s (S k)) with true in Hc by (beq; reflexivity).
  rewrite andb_true_r in Ha. cbn [andb] in Hc. rewrite !(Nat.add_1_r k).
  destruct (Nat.ltb_spec s k), (Nat.ltb_spec (S k) e); try lia.
  - assert (Ef : fin n k = 1%nat) by (apply Hcl; lia). rewrite Ef in *.
    destruct (Nat.leb_spec k i), (Nat.leb_spec i k), (Nat.eqb_spec i k); try lia; cbn [andb negb];
      do 5 (gets; beq; cbn [andb]); try reflexivity; destruct sign; reflexivity.
  - assert (Ef : fin n k = lc) by (apply Hlc; lia). rewrite <- Ef.
    destruct (Nat.leb_spec i k), (Nat.eqb_spec i k); try lia; cbn [andb negb];
      do 5 (gets; beq; cbn [andb]); try reflexivity.
  - assert (Ef : fin n k = 1%nat) by (apply Hcl; lia). rewrite Ef in *.
    destruct (Nat.leb_spec k i); try lia; cbn [andb negb];
      do 5 (gets; beq; cbn [andb]); try reflexivity.
  - beq; reflexivity.
Qed.



Lemma lr_thread : thread ds b O O' s e lrU lrT lrC (fun _ _ _ => 0).
Proof.
  assert (Hs : forall k, (k < length ds)%nat -> site O' k =
     if Nat.leb s k && Nat.ltb k e then long_range_site O H i sign s e lc k else site O k).
  { intros k Hk. unfold O'. rewrite site_map_seq by exact Hk. reflexivity. }
  assert (Hin : forall k, ((s <= k < e)%nat /\ Nat.leb s k && Nat.ltb k e = true) \/
                          (~ (s <= k < e)%nat /\ Nat.leb s k && Nat.ltb k e = false)).
  { intros k. destruct (Nat.leb_spec s k), (Nat.ltb_spec k e); cbn; [left|right|right|right]; split; try reflexivity; lia. }
  constructor; try intros k.
  - exact He.
  - unfold O'. rewrite map_length, seq_length. reflexivity.
  - intros Hk. rewrite Hs by exact Hk. destruct (Hin k) as [(E1 & ->)|(E1 & ->)].
    + apply lr_site_dims. exact E1.
    + destruct (nb_out s e k E1) as (-> & ->). rewrite !Nat.add_0_r. apply (hf_dims _ _ _ HF). exact Hk.
  - intros Hk. rewrite Hs by exact Hk. destruct (Hin k) as [(E1 & ->)|(E1 & ->)].
    + apply lr_site_dims. exact E1.
    + apply (hf_wf _ _ _ HF). exact Hk.
  - intros a c x y Hk Ha Hc Hx Hy. rewrite Hs by exact Hk. destruct (Hin k) as [(E1 & ->)|(E1 & ->)]; [|ring].
    rewrite lr_site_get by (assumption || lia). beq. ring.
  - intros a x y Hk Ha Hn Hx Hy. rewrite Hs by exact Hk. destruct (Hin k) as [(E1 & ->)|(E1 & ->)].
    2:{ destruct (nb_out s e k E1) as (_ & E2). congruence. }
    rewrite lr_site_get; [|assumption|lia|rewrite Hn; lia|assumption|assumption].
    unfold lrU. rewrite Hn, Nat.eqb_refl. destruct (Nat.eqb_spec a (b k)); [lia|]. cbn [andb].
    destruct (Nat.eqb_spec a 0) as [->|Ha0]; [rewrite delta_refl|rewrite delta_neq by exact Ha0]; cbn [andb];
      destruct (Nat.leb k i); ring.
  - intros c x y Hk Hn Hc Hx Hy. rewrite Hs by exact Hk. destruct (Hin k) as [(E1 & ->)|(E1 & ->)].
    2:{ destruct (nb_out s e k E1) as (E2 & _). congruence. }
    rewrite lr_site_get; [|assumption|rewrite Hn; lia|lia|assumption|assumption].
    rewrite Nat.eqb_refl. destruct (Nat.eqb_spec c (b (S k))); [lia|]. unfold lrC.
    destruct (Nat.leb_spec s k); [|lia]. destruct (Nat.ltb_spec k e); [|lia]. cbn [andb]. unfold n.
    destruct (Nat.eqb_spec c (fin (length ds) k)) as [->|Hc0]; [rewrite delta_refl|rewrite delta_neq by exact Hc0]; cbn [andb];
      destruct (Nat.leb i k); ring.
  - intros x y Hk Hn Hn' Hx Hy. rewrite Hs by exact Hk. destruct (Hin k) as [(E1 & ->)|(E1 & ->)].
    2:{ destruct (nb_out s e k E1) as (E2 & _). congruence. }
    rewrite lr_site_get; [|assumption|rewrite Hn; lia|rewrite Hn'; lia|assumption|assumption].
    rewrite !Nat.eqb_refl. unfold lrT. rewrite Hn', (Nat.eqb_sym i k). cbn [andb].
    destruct (Nat.eqb k i); reflexivity.
  - intros x y Hn. unfold lrU. rewrite Hn. reflexivity.
  - intros x y Hn. unfold lrT. rewrite Hn. reflexivity.
Qed.


Lemma lr_value is js : in_range ds is -> in_range ds js ->
  (forall k, (k < length ds)%nat -> ~ (s <= k < e)%nat -> is_zero_tensor (nth k H empty) = true) ->
  Nw lrU lrT lrC (fun _ _ _ => 0) 0 is js = star_op n i Hm (sgn sign) is js.
Proof.
  intros His Hjs Hz.
  assert (Li : length is = length ds) by (apply in_range_length; exact His).
  assert (Lj : length js = length is) by (rewrite Li; apply in_range_length; exact Hjs).
  rewrite Nw_sum by exact Lj.
  rewrite (sum_zero (length is) (fun p => product_op _ _ _ _)).
  2:{ intros p Hp. apply (product_op_zero _ _ _ _ p); [lia|exact Lj|]. intros x y. cbn [Nat.add].
      rewrite Nat.eqb_refl. reflexivity. }
  cbn [Nat.add]. unfold star_op, n. rewrite Li.
  set (G := fun p q => pair_op lrU lrT lrC 0 p q is js).
  assert (HG0 : forall p q, (p < length ds)%nat -> (q < length ds)%nat -> (p < q)%nat -> (i < p \/ q < i \/ p < i < q)%nat -> G p q = 0).
  { intros p q Hp Hq Hpq Hc. unfold G, pair_op. destruct Hc as [Hc|[Hc|Hc]].
    - apply (product_op_zero _ _ _ _ p); [lia|exact Lj|]. intros x y. rewrite Nat.eqb_refl. unfold lrU.
      destruct (Nat.leb_spec p i); [lia|]. rewrite andb_false_r. reflexivity.
    - apply (product_op_zero _ _ _ _ q); [lia|exact Lj|]. intros x y. destruct (Nat.eqb_spec q p); [lia|].
      rewrite Nat.eqb_refl. unfold lrC. destruct (Nat.leb_spec i q); [lia|]. rewrite andb_false_r. reflexivity.
    - apply (product_op_zero _ _ _ _ i); [lia|exact Lj|]. intros x y.
      beq. cbn [andb]. unfold lrT. rewrite Nat.eqb_refl, andb_false_r. reflexivity. }
  transitivity (sum (length ds) (fun p => (if Nat.ltb p i then G p i else 0)
       + (if Nat.eqb p i then sum (length ds) (fun q => if Nat.ltb i q then G i q else 0) else 0))).
  { replace (0 + _) with (sum (length ds) (fun p => sum (length ds) (fun q => if Nat.ltb p q then G p q else 0))) by (unfold G; ring).
    apply sum_ext. intros p Hp. destruct (Nat.ltb_spec p i).
    - destruct (Nat.eqb_spec p i); [lia|]. rewrite (sum_single _ i); [|lia|].
      + destruct (Nat.ltb_spec p i); [|lia]. ring.
      + intros q Hq Hne. destruct (Nat.ltb_spec p q); [|reflexivity]. apply HG0; try assumption. lia.
    - destruct (Nat.eqb_spec p i) as [->|].
      + ring.
      + rewrite sum_zero; [ring|]. intros q Hq. destruct (Nat.ltb_spec p q); [|reflexivity]. apply HG0; try assumption. lia. }
  rewrite sum_add, (sum_if_single (length ds) i) by lia.
  rewrite <- sum_add. apply sum_ext. intros j Hj.
  assert (Hmz : forall k, (k < length ds)%nat -> ~ (s <= k < e)%nat -> forall x y, Hm k x y = 0).
  { intros k Hk Hk' x y. unfold Hm, mat. apply is_zero_get. apply Hz; assumption. }
  destruct (Nat.ltb_spec j i).
  - destruct (Nat.ltb_spec i j); [lia|]. destruct (Nat.eqb_spec j i); [lia|].
    rewrite Nat.min_r, Nat.max_l by lia.
    destruct (le_lt_dec s j) as [Hsj|Hsj].
    + replace (G j i + 0) with (G j i) by ring. unfold G, pair_op.
      apply (product_op_ext_ds ds); [exact His|exact Hjs|]. intros k x y Hk Hx Hy.
      destruct (Nat.eqb_spec k j) as [->|].
      { destruct (Nat.eqb_spec j i); [lia|]. unfold lrU, nb. beq. reflexivity. }
      destruct (Nat.eqb_spec k i) as [->|].
      { unfold lrC. beq. reflexivity. }
      destruct (Nat.ltb_spec j k), (Nat.ltb_spec k i); cbn [andb]; try reflexivity.
      unfold lrT, nb, sgn, mat. beq. cbn [andb negb]. destruct sign; [reflexivity|]. apply get_eye; assumption.
    + transitivity (0 + 0); [|transitivity k0; [ring|symmetry]].
      * f_equal. unfold G, pair_op. apply (product_op_zero _ _ _ _ j); [lia|exact Lj|].
        intros x y. rewrite Nat.eqb_refl. unfold lrU. destruct (nb_out s e j ltac:(lia)) as (_ & ->). reflexivity.
      * apply (product_op_zero _ _ _ _ j); [lia|exact Lj|]. intros x y. beq. rewrite Hmz by lia. reflexivity.
  - destruct (Nat.ltb_spec i j) as [Hij|Hij].
    + destruct (Nat.eqb_spec j i); [lia|]. rewrite Nat.min_l, Nat.max_r by lia.
      destruct (le_lt_dec e j) as [Hje|Hje].
      * transitivity (0 + 0); [|transitivity k0; [ring|symmetry]].
        -- f_equal. unfold G, pair_op. apply (product_op_zero _ _ _ _ j); [lia|exact Lj|].
           intros x y. unfold lrC. beq. rewrite andb_false_r. reflexivity.
        -- apply (product_op_zero _ _ _ _ j); [lia|exact Lj|]. intros x y. beq. rewrite Hmz by lia. reflexivity.
      * replace (0 + G i j) with (G i j) by ring. unfold G, pair_op.
        apply (product_op_ext_ds ds); [exact His|exact Hjs|]. intros k x y Hk Hx Hy.
        destruct (Nat.eqb_spec k i) as [->|]. { unfold lrU, nb. beq. reflexivity. }
        destruct (Nat.eqb_spec k j) as [->|]. { unfold lrC. beq. reflexivity. }
        destruct (Nat.ltb_spec i k), (Nat.ltb_spec k j); cbn [andb]; try reflexivity.
        unfold lrT, nb, sgn, mat. beq. cbn [andb negb]. destruct sign; [reflexivity|]. apply get_eye; assumption.
    + destruct (Nat.eqb_spec j i); [ring|lia].
Qed.

End LR.
End Add.
