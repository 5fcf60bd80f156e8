(** set_canonical_2_sites: splitting a two-site tensor *)
From Coq Require Import Reals Lra Bool List Arith ZArith Lia Ring.
From Verif Require Import Scalar ScalarFacts RScal Tensor TensorFacts Spec MpsModel MpsFacts EnvFacts ExpectedFacts
  StateFacts StateFacts2 MpoSpec MpoModel CanonSpec CanonModel TruncFacts SplitFacts CanonFacts CanonSweep CanonNorm CanonProps.
Import ListNotations.
Local Open Scope K_scope.

Section Facts.
Context {RS : RScal}.
Add Ring Kring : k_ring.
Variable svd : tensor -> tensor * list R * tensor.
Variable flag : R.
Hypothesis Hsvd : svd_contract svd.

Definition tol_exact (tol : R) (Dmax : Z) (n : nat) : Prop :=
  (tol = 0 \/ 1 <= tol \/ (tol < 0 /\ (flag = 0 \/ 1 <= flag)))%R /\ (Dmax <= 0 \/ Z.of_nat n <= Dmax)%Z.

Lemma tol_exact_zero tol Dmax n s : tol_exact tol Dmax n -> (length s <= n)%nat ->
  forall k, (where_to_truncate flag s tol Dmax <= k)%nat -> nth k s 0%R = 0%R.
Proof.
  intros (Ht & HD) Hl k Hk.
  assert (He : eff_tol flag tol = 0%R \/ (1 <= eff_tol flag tol)%R).
  { unfold eff_tol. destruct (Rltb tol 0) eqn:E; [apply Rltb_true in E|apply Rltb_false in E]; lra. }
  assert (Hm : eff_max s Dmax = length s).
  { unfold eff_max. destruct (Z.leb_spec Dmax 0); [reflexivity|]. destruct (Z.ltb_spec (Z.of_nat (length s)) Dmax); [reflexivity|].
    cbn [orb]. lia. }
  destruct He as [He|He].
  - rewrite (wtt_zeros flag s tol Dmax He), Hm in Hk. apply last_nonzero_beyond.
    pose proof (last_nonzero_le s). lia.
  - rewrite (wtt_none flag s tol Dmax He), Hm in Hk. apply nth_overflow. exact Hk.
Qed.

Lemma tol_exact_drop tol Dmax mm nn A U s V x y : is_svd mm nn A U s V -> tol_exact tol Dmax (Nat.min mm nn) ->
  dropped U s V (where_to_truncate flag s tol Dmax) x y = 0.
Proof.
  intros Hs Ht. unfold dropped. apply sum_zero. intros k Hk.
  rewrite (tol_exact_zero tol Dmax (Nat.min mm nn) s Ht) by (try apply Hs; lia). rewrite rinj_0. ring.
Qed.

Lemma replace2 (P : mps) k x y : (S k < length P)%nat ->
  replace_nth (S k) y (replace_nth k x P) = firstn k P ++ x :: y :: skipn (S (S k)) P /\
  replace_nth k x (replace_nth (S k) y P) = firstn k P ++ x :: y :: skipn (S (S k)) P.
Proof.
  revert k. induction P as [|A P IH]; intros k Hk; [cbn in Hk; lia|]. destruct k as [|k].
  - destruct P as [|B P]; [cbn in Hk; lia|]. split; reflexivity.
  - cbn in Hk. destruct (IH k ltac:(lia)) as (H1 & H2). split; cbn [replace_nth firstn skipn app]; f_equal; assumption.
Qed.

Lemma kmod2_pos x : x <> 0 -> (0 < kmod2 x)%R.
Proof.
  intros H. destruct (Rle_lt_or_eq_dec 0 (kmod2 x) (kmod2_nonneg x)) as [L|E]; [exact L|].
  exfalso. apply H. apply kmod2_zero. symmetry. exact E.
Qed.

(** Something is left when the tensor is not zero. *)
Lemma kept_nonzero mm nn A U s V l : is_svd mm nn A U s V -> (0 < l)%nat -> (l <= length s)%nat ->
  (exists x y, (x < mm)%nat /\ (y < nn)%nat /\ get A [x; y] <> 0) ->
  exists x y, (x < mm)%nat /\ (y < nn)%nat /\ get A [x; y] <> dropped U s V l x y.
Proof.
  intros Hs Hl Hle (x0 & y0 & Hx0 & Hy0 & Hnz).
  (* otherwise the two weights are equal *)
  assert (H0 : nth 0 s 0%R <> 0%R).
  { intros E. apply Hnz. destruct Hs as (_ & _ & _ & _ & Hp & Hdec & _ & _ & Hrec).
    rewrite Hrec by assumption. apply sum_zero. intros k Hk.
    assert (E2 : nth k s 0%R = 0%R).
    { pose proof (Hdec 0%nat k ltac:(lia) Hk). pose proof (Hp k Hk). lra. }
    rewrite E2, rinj_0. ring. }
  assert (Hlt : (tail_weight s l < tail_weight s 0)%R).
  { rewrite (tail_weight_S s 0) by lia. pose proof (tail_weight_le s 1 l ltac:(lia)). nra. }
  pose proof (dropped_weight mm nn A U s V l Hs Hle) as Hdw.
  pose proof (svd_total mm nn A U s V Hs) as Htot.
  assert (Hfin : (forall x y, (x < mm)%nat -> (y < nn)%nat -> get A [x; y] = dropped U s V l x y) -> False).
  { intros Hall. assert (E : rinj (tail_weight s 0) = rinj (tail_weight s l)).
    { rewrite <- Htot, <- Hdw. apply sum_ext. intros x Hx. apply sum_ext. intros y Hy. rewrite Hall by assumption. reflexivity. }
    apply rinj_inj in E. lra. }
  (* finite search *)
  assert (Hdec1 : forall x n, (n <= nn)%nat ->
     (forall y, (y < n)%nat -> get A [x; y] = dropped U s V l x y) \/
     exists y, (y < n)%nat /\ get A [x; y] <> dropped U s V l x y).
  { intros x n. induction n as [|n IH]; intros Hn; [left; intros; lia|].
    destruct (IH ltac:(lia)) as [H|(y & Hy & H)]; [|right; exists y; split; [lia|exact H]].
    destruct (keqb_spec (get A [x; n]) (dropped U s V l x n)) as [E|E].
    - left. intros y Hy. destruct (Nat.eq_dec y n) as [->|]; [exact E|apply H; lia].
    - right. exists n. split; [lia|exact E]. }
  assert (Hdec2 : forall m, (m <= mm)%nat ->
     (forall x y, (x < m)%nat -> (y < nn)%nat -> get A [x; y] = dropped U s V l x y) \/
     exists x y, (x < m)%nat /\ (y < nn)%nat /\ get A [x; y] <> dropped U s V l x y).
  { intros m. induction m as [|m IH]; intros Hm; [left; intros; lia|].
    destruct (IH ltac:(lia)) as [H|(x & y & Hx & Hy & H)]; [|right; exists x, y; repeat split; auto; lia].
    destruct (Hdec1 m nn ltac:(lia)) as [H2|(y & Hy & H2)].
    - left. intros x y Hx Hy. destruct (Nat.eq_dec x m) as [->|]; [apply H2; exact Hy|apply H; lia].
    - right. exists m, y. repeat split; auto. }
  destruct (Hdec2 mm (le_n _)) as [H|H]; [destruct (Hfin H)|exact H].
Qed.

(** The pair of tensors and the state they are stored in. *)
Lemma s2s_false P Pij a i j c k sense Dmax tol : (S k < length P)%nat -> dims Pij = [a; i; j; c] -> wf Pij ->
  (0 < a)%nat -> (0 < i)%nat -> (0 < j)%nat -> (0 < c)%nat ->
  let st := if (0 <? sense)%Z then k else S k in
  exists Pi Pj U s V, 
    let b := where_to_truncate flag s tol Dmax in
    (two_pair svd flag Pij Dmax tol (0 <? sense)%Z) = (Pi, Pj) /\
    set_canonical_2_sites svd flag P Pij (Z.of_nat st) sense Dmax tol false
      = Ok (firstn k P ++ Pi :: Pj :: skipn (S (S k)) P) /\
    is_svd (a * i) (j * c) (reshape Pij [a * i; j * c]%nat) U s V /\
    pair_spec Pij a i j c (0 <? sense)%Z Pi Pj b (fun x y z w => dropped U s V b (x + a * y)%nat (z + j * w)%nat).
Proof.
  intros Hk Hd Hw Ha Hi Hj Hc st.
  destruct (two_pair_ok svd flag Hsvd Pij a i j c Dmax tol (0 <? sense)%Z Hd Hw Ha Hi Hj Hc) as (U & s & V & E & Hs & HP).
  cbv zeta in HP. destruct (two_pair svd flag Pij Dmax tol (0 <? sense)%Z) as [Pi Pj] eqn:Etp.
  exists Pi, Pj, U, s, V. cbv zeta. split; [reflexivity|]. split; [|split; [exact Hs|exact HP]].
  rewrite (s2s_unfold svd flag P Pij a i j c) by assumption. unfold st.
  destruct (Z.ltb_spec 0 sense) as [H|H].
  - rewrite site_at_nat by lia. cbn [bind]. rewrite Etp.
    replace (Z.of_nat k + 1)%Z with (Z.of_nat (S k)) by lia. rewrite !Nat2Z.id.
    rewrite site_at_nat by (rewrite length_replace_nth; lia). cbn [bind].
    f_equal. apply replace2. exact Hk.
  - rewrite site_at_nat by lia. cbn [bind]. rewrite Etp.
    replace (Z.of_nat (S k) - 1)%Z with (Z.of_nat k) by lia. rewrite !Nat2Z.id.
    rewrite site_at_nat by (rewrite length_replace_nth; lia). cbn [bind].
    f_equal. apply replace2. exact Hk.
Qed.

Lemma amp_two_pair p q Pi Pj D a i j c b is y z js :
  linked D p a -> linked c q D -> (0 < c)%nat -> (0 < b)%nat -> (0 < i)%nat -> (0 < j)%nat ->
  dims Pi = [a; i; b] -> wf Pi -> dims Pj = [b; j; c] -> wf Pj -> length is = length p ->
  amp (p ++ Pi :: Pj :: q) (is ++ y :: z :: js) = amp_two p a c (joined Pi Pj) q D is y z js.
Proof.
  intros Hp Hq Hc Hb Hi Hj HPi HwPi HPj HwPj Hl.
  assert (L1 : linked a (Pi :: Pj :: q) D) by (exists i, b; repeat split; auto; exists j, c; repeat split; auto).
  assert (L2 : linked D (p ++ Pi :: Pj :: q) D) by (apply linked_app; exists a; auto).
  unfold amp, amp_two. rewrite (linked_left_bond D _ D) by (try exact L2; destruct p; discriminate).
  apply sum_ext. intros x Hx. rewrite (chain_app D p a _ D is _ x x Hp L1 Hl Hx).
  apply sum_ext. intros u Hu. rewrite chain_pair. replace (dim Pj 2) with c by (unfold dim; rewrite HPj; reflexivity).
  rewrite sum_mul_l. apply sum_ext. intros w Hww. ring.
Qed.

Lemma amp_two_ext p a c T T' q D is y z js :
  (forall u w, (u < a)%nat -> (w < c)%nat -> T u y z w = T' u y z w) ->
  amp_two p a c T q D is y z js = amp_two p a c T' q D is y z js.
Proof.
  intros H. unfold amp_two. apply sum_ext. intros x Hx. apply sum_ext. intros u Hu. apply sum_ext. intros w Hww.
  rewrite H by assumption. reflexivity.
Qed.

(** Weight of what is lost in the pair. *)
Lemma pair_error Pij a i j c left Pi Pj U s V b :
  is_svd (a * i) (j * c) (reshape Pij [a * i; j * c]%nat) U s V -> dims Pij = [a; i; j; c] -> (b <= length s)%nat ->
  pair_spec Pij a i j c left Pi Pj b (fun x y z w => dropped U s V b (x + a * y)%nat (z + j * w)%nat) ->
  sum a (fun x => sum i (fun y => sum j (fun z => sum c (fun w =>
     kconj (get Pij [x; y; z; w] - joined Pi Pj x y z w) * (get Pij [x; y; z; w] - joined Pi Pj x y z w)))))
  = rinj (tail_weight s b) /\
  sum a (fun x => sum i (fun y => sum j (fun z => sum c (fun w => kconj (get Pij [x; y; z; w]) * get Pij [x; y; z; w]))))
  = rinj (tail_weight s 0).
Proof.
  intros Hs Hd Hb (_ & _ & _ & _ & _ & Hg).
  assert (Hm : forall F : nat -> nat -> K,
     sum (a * i) (fun r => sum (j * c) (fun q => F r q)) =
     sum a (fun x => sum i (fun y => sum j (fun z => sum c (fun w => F (x + a * y)%nat (z + j * w)%nat))))).
  { intros F. rewrite sum_merge, sum_swap. apply sum_ext. intros x Hx. apply sum_ext. intros y Hy.
    rewrite sum_merge, sum_swap. reflexivity. }
  split.
  - rewrite <- (dropped_weight _ _ _ _ _ _ _ Hs Hb), Hm.
    apply sum_ext. intros x Hx. apply sum_ext. intros y Hy. apply sum_ext. intros z Hz. apply sum_ext. intros w Hww.
    rewrite Hg by assumption.
    set (T := dropped U s V b (x + a * y)%nat (z + j * w)%nat).
    replace (joined Pi Pj x y z w + T - joined Pi Pj x y z w) with T by ring. reflexivity.
  - rewrite <- (svd_total _ _ _ _ _ _ Hs), Hm.
    apply sum_ext. intros x Hx. apply sum_ext. intros y Hy. apply sum_ext. intros z Hz. apply sum_ext. intros w Hww.
    rewrite (get_join4 Pij a i j c) by assumption. reflexivity.
Qed.

(** The second tensor is not zero unless everything is. *)
Lemma pair_nonzero Pij a i j c left Pi Pj U s V b :
  is_svd (a * i) (j * c) (reshape Pij [a * i; j * c]%nat) U s V -> dims Pij = [a; i; j; c] -> (0 < b)%nat -> (b <= length s)%nat ->
  pair_spec Pij a i j c left Pi Pj b (fun x y z w => dropped U s V b (x + a * y)%nat (z + j * w)%nat) ->
  nonzero4 Pij -> nonzero3 Pi /\ nonzero3 Pj.
Proof.
  intros Hs Hd Hb Hle (HPi & HwPi & HPj & HwPj & _ & Hg) Hn.
  destruct (kept_nonzero _ _ _ _ _ _ b Hs Hb Hle) as (r & q & Hr & Hq & Hne).
  { destruct Hn as (x & y & z & w & Hx & Hy & Hz & Hw & Hne). unfold dim in *. rewrite Hd in *. cbn in Hx, Hy, Hz, Hw.
    exists (x + a * y)%nat, (z + j * w)%nat. split; [nia|]. split; [nia|]. rewrite (get_join4 Pij a i j c) by assumption. exact Hne. }
  assert (Ha : (0 < a)%nat) by nia. assert (Hj : (0 < j)%nat) by nia.
  assert (Er : r = (r mod a + a * (r / a))%nat) by (rewrite Nat.add_comm; apply Nat.div_mod; lia).
  assert (Eq : q = (q mod j + j * (q / j))%nat) by (rewrite Nat.add_comm; apply Nat.div_mod; lia).
  assert (Hr1 : (r mod a < a)%nat) by (apply Nat.mod_upper_bound; lia).
  assert (Hr2 : (r / a < i)%nat) by (apply Nat.div_lt_upper_bound; lia).
  assert (Hq1 : (q mod j < j)%nat) by (apply Nat.mod_upper_bound; lia).
  assert (Hq2 : (q / j < c)%nat) by (apply Nat.div_lt_upper_bound; lia).
  set (x := (r mod a)%nat) in *. set (y := (r / a)%nat) in *. set (z := (q mod j)%nat) in *. set (w := (q / j)%nat) in *.
  clearbody x y z w. subst r q. rewrite (get_join4 Pij a i j c) in Hne by assumption.
  rewrite Hg in Hne by assumption.
  assert (Hj0 : joined Pi Pj x y z w <> 0).
  { intros E. apply Hne. rewrite E. ring. }
  unfold joined in Hj0. replace (dim Pi 2) with b in Hj0 by (unfold dim; rewrite HPi; reflexivity).
  assert (Hex : exists t, (t < b)%nat /\ get Pi [x; y; t] * get Pj [t; z; w] <> 0).
  { clear -Hj0. induction b as [|b IH]; cbn in Hj0; [congruence|].
    destruct (keqb_spec (get Pi [x; y; b] * get Pj [b; z; w]) 0) as [E|E].
    - rewrite E in Hj0. destruct IH as (t & Ht & H); [intros E2; apply Hj0; rewrite E2; ring|].
      exists t. split; [lia|exact H].
    - exists b. split; [lia|exact E]. }
  destruct Hex as (t & Ht & Hp). split.
  - exists x, y, t. unfold dim. rewrite HPi. cbn. repeat split; auto. intros E. apply Hp. rewrite E. ring.
  - exists t, z, w. unfold dim. rewrite HPj. cbn. repeat split; auto. intros E. apply Hp. rewrite E. ring.
Qed.

Lemma site_two (P : mps) k (x y : tensor) q : (S k < length P)%nat ->
  site (firstn k P ++ x :: y :: skipn (S (S k)) P) q =
  if Nat.eqb q k then x else if Nat.eqb q (S k) then y else site P q.
Proof.
  intros Hk. destruct (replace2 P k x y Hk) as (E & _). rewrite <- E. unfold site.
  destruct (Nat.eqb_spec q k) as [->|H1].
  - rewrite nth_replace_nth_neq by lia. apply nth_replace_nth_eq. lia.
  - destruct (Nat.eqb_spec q (S k)) as [->|H2].
    + apply nth_replace_nth_eq. rewrite length_replace_nth. lia.
    + rewrite nth_replace_nth_neq by lia. apply nth_replace_nth_neq. lia.
Qed.

(** canonicalize_both = true *)
Lemma s2s_true P Pij a i j c k sense Dmax tol D : (S k < length P)%nat -> dims Pij = [a; i; j; c] -> wf Pij ->
  (0 < a)%nat -> (0 < i)%nat -> (0 < j)%nat -> (0 < c)%nat -> (0 < D)%nat ->
  linked D (firstn k P) a -> linked c (skipn (S (S k)) P) D ->
  (eff_tol flag tol <> 0%R \/ nonzero4 Pij) -> (flag <> 0%R \/ nonzero4 Pij) ->
  let st := if (0 <? sense)%Z then k else S k in
  exists P', set_canonical_2_sites svd flag P Pij (Z.of_nat st) sense Dmax tol true = Ok P' /\
    linked D P' D /\ pdims P' = pdims (firstn k P) ++ i :: j :: pdims (skipn (S (S k)) P) /\
    (if (0 <? sense)%Z then left_isometry (site P' k) /\ ((S (S k) < length P)%nat -> left_isometry (site P' (S k)))
     else right_isometry (site P' (S k)) /\ ((0 < k)%nat -> right_isometry (site P' k))) /\
    (tol_exact tol Dmax (Nat.min (a * i) (j * c)) -> (flag = 0%R \/ (1 <= flag)%R) ->
     forall is y z js, in_range (pdims (firstn k P)) is -> (y < i)%nat -> (z < j)%nat -> in_range (pdims (skipn (S (S k)) P)) js ->
       amp P' (is ++ y :: z :: js) =
       amp_two (firstn k P) a c (fun u y z w => get Pij [u; y; z; w]) (skipn (S (S k)) P) D is y z js).
Proof.
  intros Hk Hd Hw Ha Hi Hj Hc HD Hp Hq Hn1 Hn2 st.
  destruct (s2s_false P Pij a i j c k sense Dmax tol Hk Hd Hw Ha Hi Hj Hc) as (Pi & Pj & U & s & V & Etp & _ & Hs & Hps).
  set (b := where_to_truncate flag s tol Dmax) in *.
  assert (Hb : (0 < b)%nat) by (apply (two_pos flag Pij a i j c U s V); assumption).
  assert (Hble : (b <= length s)%nat) by apply wtt_le_length.
  pose proof Hps as (HPi & HwPi & HPj & HwPj & HI & Hg).
  set (P1 := firstn k P ++ Pi :: Pj :: skipn (S (S k)) P) in *.
  assert (L1 : linked D P1 D).
  { apply linked_app. exists a. split; [exact Hp|]. exists i, b. repeat split; auto. exists j, c. repeat split; auto. }
  assert (Hlen1 : length P1 = length P).
  { unfold P1. rewrite app_length. cbn [length]. rewrite firstn_length, skipn_length. lia. }
  assert (HP1ne : P1 <> []) by (intros E; rewrite E in Hlen1; cbn in Hlen1; lia).
  assert (Hpd1 : pdims P1 = pdims (firstn k P) ++ i :: j :: pdims (skipn (S (S k)) P)).
  { unfold P1. rewrite pdims_app. cbn [pdims map]. unfold dim. rewrite HPi, HPj. reflexivity. }
  assert (Hamp1 : tol_exact tol Dmax (Nat.min (a * i) (j * c)) ->
     forall is y z js, in_range (pdims (firstn k P)) is -> (y < i)%nat -> (z < j)%nat -> in_range (pdims (skipn (S (S k)) P)) js ->
       amp P1 (is ++ y :: z :: js) =
       amp_two (firstn k P) a c (fun u y z w => get Pij [u; y; z; w]) (skipn (S (S k)) P) D is y z js).
  { intros He is y z js His Hy Hz Hjs. unfold P1.
    rewrite (amp_two_pair _ _ Pi Pj D a i j c b) by (try assumption; rewrite (in_range_length _ _ His); apply length_pdims).
    apply amp_two_ext. intros u w Hu Hww. rewrite Hg by assumption. rewrite (tol_exact_drop _ _ _ _ _ _ _ _ _ _ Hs He). ring. }
  assert (Hfin : forall P' k', set_canonical_2_sites svd flag P Pij (Z.of_nat st) sense Dmax tol true = Ok P' ->
     step_ok flag D D P1 P' k' true ->
     linked D P' D /\ pdims P' = pdims (firstn k P) ++ i :: j :: pdims (skipn (S (S k)) P) /\
     (tol_exact tol Dmax (Nat.min (a * i) (j * c)) -> (flag = 0%R \/ (1 <= flag)%R) ->
     forall is y z js, in_range (pdims (firstn k P)) is -> (y < i)%nat -> (z < j)%nat -> in_range (pdims (skipn (S (S k)) P)) js ->
       amp P' (is ++ y :: z :: js) =
       amp_two (firstn k P) a c (fun u y z w => get Pij [u; y; z; w]) (skipn (S (S k)) P) D is y z js)).
  { intros P' k' _ (S1 & S2 & S3 & S4 & S5). split; [exact S1|]. split; [rewrite S2; exact Hpd1|].
    intros He Hf is y z js His Hy Hz Hjs. rewrite <- Hamp1 by assumption.
    apply (same_chain_amp D P1 P' D D); auto.
    - intros E. rewrite E in S2. cbn in S2. rewrite Hpd1 in S2. destruct (pdims (firstn k P)); discriminate.
    - rewrite Hpd1. apply in_range_app; [exact His|]. constructor; [exact Hy|]. constructor; [exact Hz|exact Hjs]. }
  assert (Hnz : nonzero4 Pij -> nonzero3 Pi /\ nonzero3 Pj) by (apply (pair_nonzero Pij a i j c _ Pi Pj U s V b Hs Hd Hb Hble Hps)).
  assert (Eun : set_canonical_2_sites svd flag P Pij (Z.of_nat st) sense Dmax tol true =
     if (0 <? sense)%Z then set_canonical svd flag (replace_nth k Pi P) (Z.of_nat (S k)) Pj sense true
     else set_canonical svd flag (replace_nth (S k) Pj P) (Z.of_nat k) Pi sense true).
  { rewrite (s2s_unfold svd flag P Pij a i j c) by assumption. unfold st.
    destruct (Z.ltb_spec 0 sense) as [H|H]; rewrite site_at_nat by lia; cbn [bind]; rewrite Etp.
    - replace (Z.of_nat k + 1)%Z with (Z.of_nat (S k)) by lia. rewrite !Nat2Z.id. reflexivity.
    - replace (Z.of_nat (S k) - 1)%Z with (Z.of_nat k) by lia. rewrite !Nat2Z.id. reflexivity. }
  destruct (replace2 P k Pi Pj Hk) as (Er1 & Er2).
  assert (Hst1 : site P1 k = Pi) by (unfold P1; rewrite site_two by exact Hk; rewrite Nat.eqb_refl; reflexivity).
  assert (Hst2 : site P1 (S k) = Pj).
  { unfold P1; rewrite site_two by exact Hk. destruct (Nat.eqb_spec (S k) k); [lia|]. rewrite Nat.eqb_refl. reflexivity. }
  rewrite Eun. destruct (Z.ltb_spec 0 sense) as [H|H].
  - assert (Hsense : set_canonical svd flag (replace_nth k Pi P) (Z.of_nat (S k)) Pj sense true =
                     set_canonical svd flag (replace_nth k Pi P) (Z.of_nat (S k)) Pj 1 true).
    { unfold set_canonical. destruct (Z.ltb_spec 0 sense); [reflexivity|lia]. }
    rewrite Hsense. destruct (Nat.eq_dec (S (S k)) (length P)) as [El|El].
    + assert (Elast : set_canonical svd flag (replace_nth k Pi P) (Z.of_nat (S k)) Pj 1 true = Ok P1).
      { unfold set_canonical. rewrite length_replace_nth.
        destruct (Z.leb_spec 0 (Z.of_nat (S k))); [|lia]. destruct (Z.ltb_spec (Z.of_nat (S k)) (Z.of_nat (length P))); [|lia].
        cbn [andb Z.ltb Z.compare]. rewrite Nat2Z.id. destruct (Nat.eqb_spec (S k + 1) (length P)); [|lia].
        rewrite Er1. reflexivity. }
      exists P1. split; [exact Elast|]. split; [exact L1|]. split; [exact Hpd1|]. split.
      * rewrite Hst1. split; [exact HI|lia].
      * intros He _. apply Hamp1. exact He.
    + destruct (set_canonical_right_ok3 svd flag Hsvd D D (replace_nth k Pi P) (S k) Pj true) as (P' & E & HS & HIso).
      { rewrite Er1. exact L1. } { exact HD. } { rewrite length_replace_nth. lia. }
      { destruct Hn2 as [Hn2|Hn2]; [left; exact Hn2|right; apply Hnz; exact Hn2]. }
      rewrite Er1 in HS. fold P1 in HS. exists P'. split; [exact E|].
      destruct (Hfin P' (S k)) as (F1 & F2 & F3); [rewrite Eun, Hsense; exact E|exact HS|].
      split; [exact F1|]. split; [exact F2|]. split; [|exact F3].
      split; [|intros _; exact HIso]. destruct HS as (_ & _ & S3 & _). rewrite S3 by lia. rewrite Hst1. exact HI.
  - assert (Hsense : set_canonical svd flag (replace_nth (S k) Pj P) (Z.of_nat k) Pi sense true =
                     set_canonical svd flag (replace_nth (S k) Pj P) (Z.of_nat k) Pi (-1) true).
    { unfold set_canonical. destruct (Z.ltb_spec 0 sense); [lia|reflexivity]. }
    rewrite Hsense. destruct k as [|k].
    + assert (Elast : set_canonical svd flag (replace_nth 1 Pj P) (Z.of_nat 0) Pi (-1) true = Ok P1).
      { unfold set_canonical. rewrite length_replace_nth.
        destruct (Z.ltb_spec (Z.of_nat 0) (Z.of_nat (length P))); [|lia]. cbn. cbn in Er2. f_equal. exact Er2. }
      exists P1. split; [exact Elast|]. split; [exact L1|]. split; [exact Hpd1|]. split.
      * rewrite Hst2. split; [exact HI|lia].
      * intros He _. apply Hamp1. exact He.
    + destruct (set_canonical_left_ok3 svd flag Hsvd D D (replace_nth (S (S k)) Pj P) k Pi true) as (P' & E & HS & HIso).
      { rewrite Er2. exact L1. } { exact HD. } { rewrite length_replace_nth. lia. }
      { destruct Hn2 as [Hn2|Hn2]; [left; exact Hn2|right; apply Hnz; exact Hn2]. }
      rewrite Er2 in HS. fold P1 in HS. exists P'. split; [exact E|].
      destruct (Hfin P' k) as (F1 & F2 & F3); [rewrite Eun, Hsense; exact E|exact HS|].
      split; [exact F1|]. split; [exact F2|]. split; [|exact F3].
      split; [|intros _; exact HIso]. destruct HS as (_ & _ & S3 & _). rewrite S3 by lia. rewrite Hst2. exact HI.
Qed.

End Facts.
