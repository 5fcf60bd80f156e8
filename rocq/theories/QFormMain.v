(** * QuadraticForm: every history gives <bra|O|ket> *)
From Coq Require Import Bool List Arith ZArith Lia Ring.
From Verif Require Import Scalar ScalarFacts Tensor TensorFacts Spec MpsModel MpsFacts EnvFacts ExpectedFacts MpoSpec MpoFacts FormModel FormSpec LFormFacts LFormValue QFormFacts QFormInv QFormValue.
Import ListNotations.
Local Open Scope K_scope.

Section Facts.
Context {SC : Scalar}.
Add Ring Kring : k_ring.

Section Hist.
Variable O : mpo.
Hypothesis HO : open_mpo O.
Hypothesis Hsq : odims O = idims O.

Lemma firstn_app_le {A} (p : list A) B k : (k <= length p)%nat -> firstn k (p ++ B) = firstn k p.
Proof. intros H. rewrite firstn_app. replace (k - length p)%nat with 0%nat by lia. change (firstn 0 B) with (@nil A). apply app_nil_r. Qed.

Lemma history_qinv f p q p' q' : qf_history O f p q p' q' ->
  qinv O f p q p' q' /\ (exists a, linked 1 p a) /\ (exists a, linked 1 p' a) /\
  (exists b, (0 < b)%nat /\ linked b q 1) /\ (exists b, (0 < b)%nat /\ linked b q' 1).
Proof.
  induction 1 as [b k s f Hb Hk Hbd Hkd E|f p B q p' B' q' S T c c' _ IH HS HT HdS HdT|f p p' S T _ IH|f p B q p' B' q' S T c c' _ IH Hc Hc' HS HT HdS HdT|f q q' S T _ IH].
  - split; [apply qinv_new; assumption|]. destruct Hb as (_ & Hb), Hk as (_ & Hk). split; [apply (linked_firstn 1 b 1 s Hb)|].
    split; [apply (linked_firstn 1 k 1 s Hk)|].
    destruct (linked_skipn 1 b 1 (S s) Hb) as (m & Hm & Hp). destruct (linked_skipn 1 k 1 (S s) Hk) as (m' & Hm' & Hp').
    split; [exists m|exists m']; auto.
  - destruct IH as ((H0 & Hh & Hpp & Hqq & Hlen & HL & HR) & Hp & Hp' & (b & Hb & Hq) & (b' & Hb' & Hq')). cbn [length] in Hlen, Hqq. split.
    + split; [apply qinv0_right; exact H0|]. split; [rewrite (qhere_right O), app_length; [cbn [length]; lia|exact H0|lia]|].
      split; [rewrite !app_length; cbn [length]; lia|]. split; [lia|]. split; [rewrite app_length; cbn [length]; lia|].
      split; [apply (qinv_left_right O HO Hsq f p p' S T c c'); auto; lia|].
      rewrite app_length. cbn [length]. intros k n la lb Hk Hn Hla Hlb HA HB. rewrite (q_after_right O) by (try assumption; lia).
      assert (Ek : (k - Datatypes.S (length p) = Datatypes.S (k - Datatypes.S (length p + 1)))%nat) by lia.
      assert (HX : linked la (skipn (k - Datatypes.S (length p)) (B :: q)) 1) by (rewrite Ek; exact HA).
      assert (HX' : linked lb (skipn (k - Datatypes.S (length p)) (B' :: q')) 1) by (rewrite Ek; exact HB).
      eapply vten_ext; [apply (HR k n la lb); try assumption; lia|]. intros x _. unfold renv_of, Rval. rewrite Ek. reflexivity.
    + split; [eauto|]. split; [eauto|].
      destruct Hq as (d & c1 & _ & _ & _ & Hc1 & Hq), Hq' as (d' & c1' & _ & _ & _ & Hc1' & Hq'). split; eauto.
  - destruct IH as ((H0 & Hh & Hpp & Hqq & Hlen & HL & HR) & Hp & Hp' & (b & Hb & Hq) & (b' & Hb' & Hq')). cbn [length] in Hlen, Hqq.
    assert (E : qf_propagate_right f S T = f).
    { unfold qf_propagate_right. pose proof H0 as (Hsz & _). rewrite Hsz, Hh. destruct (Nat.eqb_spec (length p + 1) (length O)); [reflexivity|lia]. }
    rewrite E. split; [repeat (split; [first [exact H0|assumption|reflexivity]|]); assumption|]. repeat split; eauto.
  - destruct IH as ((H0 & Hh & Hpp & Hqq & Hlen & HL & HR) & (a & Hp) & (a' & Hp') & (b & Hb & Hq) & (b' & Hb' & Hq')).
    rewrite app_length in Hh, Hlen. rewrite !app_length in Hpp. rewrite app_length in HR. cbn [length] in Hh, Hpp, Hlen, HR.
    replace (length p + 1)%nat with (Datatypes.S (length p)) in Hh, Hlen, HR, HdS, HdT by lia. split.
    + split; [apply qinv0_left; exact H0|]. split; [rewrite qhere_left; lia|]. split; [ lia|]. split; [cbn [length]; lia|]. split; [cbn [length]; lia|]. split.
      * intros k n ra rb Hk Hn HA HB. rewrite q_after_left by lia.
        eapply vten_ext; [apply (HL k n ra rb); [rewrite app_length; cbn [length]; lia|exact Hn| |]|].
        -- rewrite firstn_app_le by exact Hk. exact HA.
        -- rewrite firstn_app_le by lia. exact HB.
        -- intros x _. unfold lenv_of, Lval. rewrite !firstn_app_le by lia. reflexivity.
      * apply (qinv_right_left O HO Hsq f (length p) q q' S T c c'); auto; lia.
    + apply linked_app in Hp. destruct Hp as (m & Hp & _). apply linked_app in Hp'. destruct Hp' as (m' & Hp' & _). repeat split; eauto.
  - destruct IH as ((H0 & Hh & Hpp & Hqq & Hlen & HL & HR) & Hp & Hp' & (b & Hb & Hq) & (b' & Hb' & Hq')). cbn [length] in Hh.
    assert (E : qf_propagate_left f S T = f) by (unfold qf_propagate_left; rewrite Hh; reflexivity).
    rewrite E. split; [repeat (split; [first [exact H0|assumption|reflexivity]|]); assumption|]. repeat split; eauto.
Qed.
End Hist.

(** ** The whole chain, from its three parts *)
Lemma push5 ds a b c d e (G : list nat -> nat -> nat -> nat -> nat -> nat -> K) :
  sumcfg ds (fun is => sum a (fun y => sum b (fun m => sum c (fun z => sum d (fun w => sum e (fun n => G is y m z w n)))))) =
  sum a (fun y => sum b (fun m => sum c (fun z => sum d (fun w => sum e (fun n => sumcfg ds (fun is => G is y m z w n)))))).
Proof.
  rewrite sumcfg_sum_swap. apply sum_ext. intros y _. rewrite sumcfg_sum_swap. apply sum_ext. intros m _. rewrite sumcfg_sum_swap. apply sum_ext. intros z _.
  rewrite sumcfg_sum_swap. apply sum_ext. intros w _. rewrite sumcfg_sum_swap. reflexivity.
Qed.
Lemma push3 ds b d e (G : list nat -> nat -> nat -> nat -> K) :
  sumcfg ds (fun is => sum b (fun m => sum d (fun w => sum e (fun n => G is m w n)))) =
  sum b (fun m => sum d (fun w => sum e (fun n => sumcfg ds (fun is => G is m w n)))).
Proof.
  rewrite sumcfg_sum_swap. apply sum_ext. intros y _. rewrite sumcfg_sum_swap. apply sum_ext. intros m _. rewrite sumcfg_sum_swap. reflexivity.
Qed.

Lemma QM_mid b1 M b2 k1 N k2 O1 X O2 ra rb rc ca cb cc :
  linked 1 b1 ra -> linked 1 k1 rb -> mlinked 1 O1 rc -> linked ra M ca -> linked rb N cb -> mlinked rc X cc ->
  linked ca b2 1 -> linked cb k2 1 -> mlinked cc O2 1 -> length b1 = length O1 -> length k1 = length O1 ->
  length M = length X -> length N = length X ->
  QM (b1 ++ M ++ b2) (k1 ++ N ++ k2) (O1 ++ X ++ O2) 0 0 0 0 0 0 =
  sum ra (fun x => sumcfg (pdims M) (fun is => sum ca (fun z => sum rb (fun y => sumcfg (pdims N) (fun js => sum cb (fun w =>
    kconj (chain M is x z) * sum rc (fun m => sum cc (fun n => QM b1 k1 O1 0 0 0 x y m * mchain X is js m n * QM b2 k2 O2 z w n 0 0 0)) * chain N js y w)))))).
Proof.
  intros H1 H2 H3 H4 H5 H6 H7 H8 H9 L1 L2 L3 L4.
  assert (HM : linked ra (M ++ b2) 1) by (apply linked_app; eauto).
  assert (HN : linked rb (N ++ k2) 1) by (apply linked_app; eauto).
  assert (HX : mlinked rc (X ++ O2) 1) by (apply mlinked_app; eauto).
  rewrite (QM_app 1 1 1 b1 k1 O1 ra rb rc (M ++ b2) (N ++ k2) (X ++ O2) 1 1 1) by (try assumption; lia).
  apply sum_ext. intros x Hx.
  transitivity (sum rb (fun y => sum rc (fun m => sum ca (fun z => sum cb (fun w => sum cc (fun n => sumcfg (pdims M) (fun is => sumcfg (pdims N) (fun js =>
    kconj (chain M is x z) * (QM b1 k1 O1 0 0 0 x y m * mchain X is js m n * QM b2 k2 O2 z w n 0 0 0) * chain N js y w)))))))).
  { apply sum_ext. intros y Hy. apply sum_ext. intros m Hm.
    rewrite (QM_app ra rb rc M N X ca cb cc b2 k2 O2 1 1 1) by assumption.
    rewrite sum_mul_l. apply sum_ext. intros z Hz. rewrite sum_mul_l. apply sum_ext. intros w Hw. rewrite sum_mul_l. apply sum_ext. intros n Hn.
    unfold QM at 2. rewrite sumcfg_mul_r, sumcfg_mul_l. apply sumcfg_ext. intros is _. rewrite sumcfg_mul_r, sumcfg_mul_l. apply sumcfg_ext. intros js _. ring. }
  rewrite <- push5. apply sumcfg_ext. intros is _.
  transitivity (sum rb (fun y => sum ca (fun z => sum rc (fun m => sum cb (fun w => sum cc (fun n => sumcfg (pdims N) (fun js =>
    kconj (chain M is x z) * (QM b1 k1 O1 0 0 0 x y m * mchain X is js m n * QM b2 k2 O2 z w n 0 0 0) * chain N js y w))))))).
  { apply sum_ext. intros y _. rewrite sum_swap. reflexivity. }
  rewrite sum_swap. apply sum_ext. intros z Hz. apply sum_ext. intros y Hy. rewrite <- push3. apply sumcfg_ext. intros js _.
  rewrite sum_swap. apply sum_ext. intros w Hw. rewrite sum_mul_l, sum_mul_r. apply sum_ext. intros m Hm.
  rewrite sum_mul_l, sum_mul_r. reflexivity.
Qed.

Lemma sandwich_QM b O k : linked 1 b 1 -> mlinked 1 O 1 -> linked 1 k 1 -> b <> [] -> O <> [] -> k <> [] ->
  sandwich b O k = QM b k O 0 0 0 0 0 0.
Proof.
  intros Hb HO Hk Nb NO Nk. unfold sandwich, QM. apply sumcfg_ext. intros is His. apply sumcfg_ext. intros js Hjs.
  unfold amp, opelem. rewrite (linked_left_bond 1 b 1), (linked_left_bond 1 k 1) by assumption.
  replace (mleft O) with 1%nat by (destruct O as [|t r]; [congruence|]; destruct HO as (d & e & c & Ht & _); unfold mleft, dim; rewrite Ht; reflexivity).
  rewrite !sum_1. reflexivity.
Qed.

Lemma msandwich_sumcfg S M T (F : list nat -> list nat -> K) :
  (forall u v, in_range (dims S) u -> in_range (dims T) v -> elem M [offset (dims S) u; offset (dims T) v] = F u v) ->
  msandwich S M T = sumcfg (dims S) (fun u => sumcfg (dims T) (fun v => kconj (get S u) * F u v * get T v)).
Proof.
  intros H. unfold msandwich. rewrite sum_offset. apply sumcfg_ext. intros u Hu. rewrite sum_offset. apply sumcfg_ext. intros v Hv.
  rewrite H by assumption. reflexivity.
Qed.


Lemma get_pair A B a d m e b x i j z : dims A = [a; d; m] -> dims B = [m; e; b] -> (x < a)%nat -> (i < d)%nat -> (j < e)%nat -> (z < b)%nat ->
  get (fold A 2 B 0) [x; i; j; z] = sum m (fun k => get A [x; i; k] * get B [k; j; z]).
Proof.
  intros HA HB Hx Hi Hj Hz. unfold fold, rank, dim. rewrite HA, HB. cbn [remove_nth app length Nat.sub nth].
  rewrite get_mk by (apply in_range_4; assumption). cbn [firstn skipn insert_nth]. reflexivity.
Qed.
Lemma dims_pair A B a d m e b : dims A = [a; d; m] -> dims B = [m; e; b] -> dims (fold A 2 B 0) = [a; d; e; b].
Proof. intros HA HB. unfold fold. rewrite dims_mk, HA, HB. reflexivity. Qed.

Lemma pdims_mid p A q ds : pdims (p ++ A :: q) = ds -> dim A 1 = nth (length p) ds 0%nat.
Proof.
  intros <-. rewrite pdims_app, app_nth2 by (rewrite length_pdims; lia). rewrite length_pdims, Nat.sub_diag. reflexivity.
Qed.
Lemma pdims_mid2 p A B q ds : pdims (p ++ A :: B :: q) = ds -> dim A 1 = nth (length p) ds 0%nat /\ dim B 1 = nth (S (length p)) ds 0%nat.
Proof.
  intros E. split; [exact (pdims_mid _ _ _ _ E)|]. replace (p ++ A :: B :: q) with ((p ++ [A]) ++ B :: q) in E by (rewrite <- app_assoc; reflexivity).
  rewrite (pdims_mid _ _ _ _ E). f_equal. rewrite app_length. cbn. lia.
Qed.

Lemma mchain_one t m n i j l d e c : dims t = [l; d; e; c] -> (n < c)%nat -> mchain [t] [i] [j] m n = get t [m; i; j; n].
Proof. intros H Hn. cbn [mchain]. unfold dim. rewrite H. cbn [nth]. rewrite sum_delta_r by exact Hn. reflexivity. Qed.
Lemma mchain_two t1 t2 m n i1 j1 i2 j2 l d e k d2 e2 c : dims t1 = [l; d; e; k] -> dims t2 = [k; d2; e2; c] -> (n < c)%nat ->
  mchain [t1; t2] [i1; i2] [j1; j2] m n = sum k (fun h => get t1 [m; i1; j1; h] * get t2 [h; i2; j2; n]).
Proof.
  intros H H2 Hn. cbn [mchain]. unfold dim. rewrite H, H2. cbn [nth]. apply sum_ext. intros h Hh. f_equal. rewrite sum_delta_r by exact Hn. reflexivity.
Qed.

Section Vals.
Variable O : mpo.
Hypothesis HO : open_mpo O.
Hypothesis Hsq : odims O = idims O.

Lemma O_split h : (h < length O)%nat -> O = firstn h O ++ [site O h] ++ skipn (S h) O.
Proof. intros Hh. rewrite <- (firstn_skipn h O) at 1. f_equal. exact (skipn_nth h O empty Hh). Qed.
Lemma O_split2 h : (S h < length O)%nat -> O = firstn h O ++ [site O h; site O (S h)] ++ skipn (S (S h)) O.
Proof.
  intros Hh. rewrite <- (firstn_skipn h O) at 1. f_equal. rewrite (skipn_nth h O empty) by lia. rewrite (skipn_nth (S h) O empty) by lia. reflexivity.
Qed.

(** The situation around one site *)
Lemma one_site_setup f p q p' q' S T : qinv O f p q p' q' ->
  linked 1 (p ++ S :: q) 1 -> linked 1 (p' ++ T :: q') 1 -> pdims (p ++ S :: q) = odims O -> pdims (p' ++ T :: q') = idims O ->
  exists ra rb ca cb d, dims S = [ra; d; ca] /\ dims T = [rb; d; cb] /\ wf S /\ wf T /\
    (0 < ra /\ 0 < rb /\ 0 < ca /\ 0 < cb /\ 0 < d)%nat /\
    linked 1 p ra /\ linked ca q 1 /\ linked 1 p' rb /\ linked cb q' 1 /\
    dims (site O (length p)) = [bond O (length p); d; d; bond O (Datatypes.S (length p))] /\
    qf_pairs_at f (length p) = site_pairs (site O (length p)) /\
    (forall m, (m < bond O (length p))%nat -> vten [1; 1; ra; rb]%nat (qf_left f (length p) m) (lenv_of (Lval O p p' (length p) m))) /\
    (forall n, (n < bond O (Datatypes.S (length p)))%nat -> vten [ca; cb; 1; 1]%nat (qf_right f (length p) n) (renv_of (Rval O q q' (length p) (Datatypes.S (length p)) n))) /\
    sandwich (p ++ S :: q) O (p' ++ T :: q') =
      sumcfg [ra; d; ca] (fun u => sumcfg [rb; d; cb] (fun s => kconj (get S u) *
        form1 (site O (length p)) (bond O (length p)) (bond O (Datatypes.S (length p))) (fun m => Lval O p p' (length p) m)
          (fun n => Rval O q q' (length p) (Datatypes.S (length p)) n) (nth 0 u 0%nat) (nth 1 u 0%nat) (nth 2 u 0%nat) (nth 0 s 0%nat) (nth 1 s 0%nat) (nth 2 s 0%nat)
        * get T s)).
Proof.
  intros (H0 & Hh & Hpp & Hqq & Hlen & HL & HR) HS HT HdS HdT.
  pose proof HS as HS'. apply linked_app in HS'. destruct HS' as (ra & Hp & (d & ca & S1 & S2 & S3 & S4 & Hq)).
  pose proof HT as HT'. apply linked_app in HT'. destruct HT' as (rb & Hp' & (e & cb & T1 & T2 & T3 & T4 & Hq')).
  assert (Hra : (0 < ra)%nat) by (eapply linked_pos; [exact Hp|lia]). assert (Hrb : (0 < rb)%nat) by (eapply linked_pos; [exact Hp'|lia]).
  set (h := length p) in *. assert (Hh' : (h < length O)%nat) by lia.
  destruct (site_dims O HO Hsq h Hh') as (d0 & Ht & Hwt & Hd0 & Hd1 & Hd2).
  pose proof (pdims_mid _ _ _ _ HdS) as E1. unfold dim in E1. rewrite S1 in E1. change (d = nth (length p) (odims O) 0%nat) in E1.
  pose proof (pdims_mid _ _ _ _ HdT) as E2. unfold dim in E2. rewrite T1 in E2. change (e = nth (length p') (idims O) 0%nat) in E2. rewrite Hpp in E2.
  fold h in E1. rewrite <- Hd1 in E1. rewrite <- Hd2 in E2. subst d e.
  exists ra, rb, ca, cb, d0. split; [exact S1|]. split; [exact T1|]. split; [exact S2|]. split; [exact T2|]. split; [auto|].
  do 4 (split; [assumption|]). split; [exact Ht|].
  split; [unfold qf_pairs_at; apply pairs_at; assumption|].
  split; [|split].
  - intros m Hm. apply (HL h m ra rb); try assumption; try (unfold h; lia).
    + unfold h. rewrite firstn_all. exact Hp.
    + rewrite <- Hpp, firstn_all. exact Hp'.
  - intros n Hn. unfold qf_right. replace (h + 1)%nat with (Datatypes.S h) by lia. apply (HR (Datatypes.S h) n ca cb); try assumption; try lia.
    + rewrite Nat.sub_diag. exact Hq.
    + rewrite Nat.sub_diag. exact Hq'.
  - destruct (bond_ok O HO h) as (Hb1 & _ & Hb2). destruct (bond_ok O HO (Datatypes.S h)) as (_ & Hb3 & Hb4).
    assert (HOl : mlinked 1 O 1) by apply HO.
    rewrite sandwich_QM; try assumption; try (destruct p; discriminate); try (destruct p'; discriminate).
    2:{ intros ->. cbn in Hh'. lia. }
    rewrite (O_split h Hh') at 1. change (S :: q) with ([S] ++ q). change (T :: q') with ([T] ++ q').
    rewrite (QM_mid p [S] q p' [T] q' (firstn h O) [site O h] (skipn (Datatypes.S h) O) ra rb (bond O h) ca cb (bond O (Datatypes.S h)));
      try assumption; try reflexivity; try (rewrite firstn_length; unfold h; lia).
    2:{ exists d0, ca. cbn. auto. }
    2:{ exists d0, cb. cbn. auto. }
    2:{ exists d0, d0, (bond O (Datatypes.S h)). cbn. auto 8. }
    replace (pdims [S]) with [d0] by (unfold pdims, dim; cbn [map]; rewrite S1; reflexivity).
    replace (pdims [T]) with [d0] by (unfold pdims, dim; cbn [map]; rewrite T1; reflexivity).
    cbn [sumcfg nth].
    apply sum_ext. intros x Hx. apply sum_ext. intros i Hi. apply sum_ext. intros z Hz. apply sum_ext. intros y Hy. apply sum_ext. intros j Hj. apply sum_ext. intros w Hw.
    rewrite (chain_one S i x z ra d0 ca), (chain_one T j y w rb d0 cb) by assumption. f_equal. f_equal.
    unfold form1. apply sum_ext. intros m Hm. apply sum_ext. intros n Hn. rewrite (mchain_one _ m n i j _ _ _ _ Ht Hn).
    unfold Lval, Rval. rewrite Nat.sub_diag. cbn [skipn]. replace (firstn h p) with p by (symmetry; apply firstn_all). replace (firstn h p') with p' by (rewrite <- Hpp, firstn_all; reflexivity). reflexivity.
Qed.

Lemma single_matrix_value f p q p' q' S T : qinv O f p q p' q' ->
  linked 1 (p ++ S :: q) 1 -> linked 1 (p' ++ T :: q') 1 -> pdims (p ++ S :: q) = odims O -> pdims (p' ++ T :: q') = idims O ->
  exists M, single_site_matrix f = Ok M /\ (is_empty M = true \/ dims M = [nprod (dims S); nprod (dims T)]) /\
    msandwich S M T = sandwich (p ++ S :: q) O (p' ++ T :: q').
Proof.
  intros Hi HS HT HdS HdT. destruct (one_site_setup f p q p' q' S T Hi HS HT HdS HdT) as
    (ra & rb & ca & cb & d & S1 & T1 & _ & _ & Hpos & _ & _ & _ & _ & Ht & Hps & HL & HR & HQ).
  destruct (single_matrix_vten _ _ _ _ _ _ _ _ _ _ _ _ Ht Hpos HL HR) as (M & HM & HV).
  assert (Hh : qf_here f = length p) by apply Hi.
  exists M. split; [unfold single_site_matrix; rewrite Hh, Hps; exact HM|]. split.
  - destruct HV as [(E & _)|(_ & _ & E & _)]; [left; exact E|right]. rewrite E, S1, T1. reflexivity.
  - rewrite HQ. rewrite <- S1, <- T1.
    apply msandwich_sumcfg. intros u v Hu Hv.
    assert (Hou : (offset (dims S) u < nprod (dims S))%nat) by (apply offset_lt; exact Hu).
    assert (Hov : (offset (dims T) v < nprod (dims T))%nat) by (apply offset_lt; exact Hv).
    rewrite S1 in *. rewrite T1 in *.
    rewrite (vten_elem _ _ _ [offset [ra; d; ca] u; offset [rb; d; cb] v] HV) by (apply in_range_2; assumption).
    unfold mform1. cbn [nth]. rewrite !unravel_offset by assumption. reflexivity.
Qed.

Lemma apply_one_value f p q p' q' S T : qinv O f p q p' q' ->
  linked 1 (p ++ S :: q) 1 -> linked 1 (p' ++ T :: q') 1 -> pdims (p ++ S :: q) = odims O -> pdims (p' ++ T :: q') = idims O ->
  exists v, apply_one_site_matrix f T = Ok v /\ (is_empty v = true \/ dims v = dims S) /\
    sumcfg (dims S) (fun u => kconj (get S u) * elem v u) = sandwich (p ++ S :: q) O (p' ++ T :: q').
Proof.
  intros Hi HS HT HdS HdT. destruct (one_site_setup f p q p' q' S T Hi HS HT HdS HdT) as
    (ra & rb & ca & cb & d & S1 & T1 & _ & _ & Hpos & _ & _ & _ & _ & Ht & Hps & HL & HR & HQ).
  destruct (apply_one_vten _ _ _ _ _ _ _ _ _ _ _ _ Ht Hpos HL HR T T1) as (M & HM & HV).
  assert (Hh : qf_here f = length p) by apply Hi.
  exists M. split; [unfold apply_one_site_matrix; rewrite Hh, Hps; exact HM|]. rewrite S1. split.
  - destruct HV as [(E & _)|(_ & _ & E & _)]; [left; exact E|right; exact E].
  - rewrite HQ. apply sumcfg_ext. intros u Hu. rewrite (vten_elem _ _ _ u HV) by exact Hu.
    rewrite sumcfg_mul_l. apply sumcfg_ext. intros s Hs. match goal with |- _ * (?b * _) = _ * ?b' * _ => change b' with b end. ring.
Qed.

(** Two sites, [h] and [h+1] *)
Lemma two_site_setup f p q p' q' S1 S2 T1 T2 : qinv0 O f -> length p' = length p -> length q' = length q ->
  (length p + 2 + length q = length O)%nat ->
  (forall m ra rb, (m < bond O (length p))%nat -> linked 1 p ra -> linked 1 p' rb ->
     vten [1; 1; ra; rb]%nat (qf_left f (length p) m) (lenv_of (fun z w => QM p p' (firstn (length p) O) 0 0 0 z w m))) ->
  (forall n ca cb, (n < bond O (length p + 2))%nat -> (0 < ca)%nat -> (0 < cb)%nat -> linked ca q 1 -> linked cb q' 1 ->
     vten [ca; cb; 1; 1]%nat (qf_right f (length p + 1) n) (renv_of (fun z w => QM q q' (skipn (length p + 2) O) z w n 0 0 0))) ->
  linked 1 (p ++ S1 :: S2 :: q) 1 -> linked 1 (p' ++ T1 :: T2 :: q') 1 ->
  pdims (p ++ S1 :: S2 :: q) = odims O -> pdims (p' ++ T1 :: T2 :: q') = idims O ->
  exists ra rb ca cb d1 d2, dims (fold S1 2 S2 0) = [ra; d1; d2; ca] /\ dims (fold T1 2 T2 0) = [rb; d1; d2; cb] /\
    (0 < ra /\ 0 < rb /\ 0 < ca /\ 0 < cb /\ 0 < d1 /\ 0 < d2)%nat /\
    dim S1 0 = ra /\ dim S2 2 = ca /\ dim T1 0 = rb /\ dim T2 2 = cb /\
    dims (site O (length p)) = [bond O (length p); d1; d1; bond O (length p + 1)] /\
    dims (site O (length p + 1)) = [bond O (length p + 1); d2; d2; bond O (length p + 2)] /\
    qf_pairs_at f (length p) = site_pairs (site O (length p)) /\ qf_pairs_at f (length p + 1) = site_pairs (site O (length p + 1)) /\
    (forall m, (m < bond O (length p))%nat -> vten [1; 1; ra; rb]%nat (qf_left f (length p) m) (lenv_of (fun z w => QM p p' (firstn (length p) O) 0 0 0 z w m))) /\
    (forall n, (n < bond O (length p + 2))%nat -> vten [ca; cb; 1; 1]%nat (qf_right f (length p + 1) n) (renv_of (fun z w => QM q q' (skipn (length p + 2) O) z w n 0 0 0))) /\
    sandwich (p ++ S1 :: S2 :: q) O (p' ++ T1 :: T2 :: q') =
      sumcfg [ra; d1; d2; ca] (fun u => sumcfg [rb; d1; d2; cb] (fun s => kconj (get (fold S1 2 S2 0) u) *
        form2 (site O (length p)) (site O (length p + 1)) (bond O (length p)) (bond O (length p + 1)) (bond O (length p + 2))
          (fun m z w => QM p p' (firstn (length p) O) 0 0 0 z w m) (fun n z w => QM q q' (skipn (length p + 2) O) z w n 0 0 0)
          (nth 0 u 0%nat) (nth 1 u 0%nat) (nth 2 u 0%nat) (nth 3 u 0%nat) (nth 0 s 0%nat) (nth 1 s 0%nat) (nth 2 s 0%nat) (nth 3 s 0%nat)
        * get (fold T1 2 T2 0) s)).
Proof.
  intros H0 Hpp Hqq Hlen HL HR HS HT HdS HdT.
  pose proof HS as HS'. apply linked_app in HS'. destruct HS' as (ra & Hp & HSS). pose proof HSS as (d1 & k & S11 & S12 & S13 & S14 & (d2 & ca & S21 & S22 & S23 & S24 & Hq)).
  pose proof HT as HT'. apply linked_app in HT'. destruct HT' as (rb & Hp' & HTT). pose proof HTT as (e1 & k' & T11 & T12 & T13 & T14 & (e2 & cb & T21 & T22 & T23 & T24 & Hq')).
  assert (Hra : (0 < ra)%nat) by (eapply linked_pos; [exact Hp|lia]). assert (Hrb : (0 < rb)%nat) by (eapply linked_pos; [exact Hp'|lia]).
  set (h := length p) in *. replace (h + 2)%nat with (S (S h)) in * by lia. replace (h + 1)%nat with (S h) in * by lia.
  destruct (site_dims O HO Hsq h ltac:(lia)) as (c1 & Ht1 & Hwt1 & Hd01 & Hd11 & Hd21).
  destruct (site_dims O HO Hsq (S h) ltac:(lia)) as (c2 & Ht2 & Hwt2 & Hd02 & Hd12 & Hd22).
  destruct (pdims_mid2 _ _ _ _ _ HdS) as (E1 & E2). unfold dim in E1, E2. rewrite S11 in E1. rewrite S21 in E2.
  change (d1 = nth h (odims O) 0%nat) in E1. change (d2 = nth (S h) (odims O) 0%nat) in E2.
  destruct (pdims_mid2 _ _ _ _ _ HdT) as (E3 & E4). unfold dim in E3, E4. rewrite T11 in E3. rewrite T21 in E4. rewrite Hpp in E3, E4.
  change (e1 = nth h (idims O) 0%nat) in E3. change (e2 = nth (S h) (idims O) 0%nat) in E4.
  rewrite <- Hd11 in E1. rewrite <- Hd12 in E2. rewrite <- Hd21 in E3. rewrite <- Hd22 in E4. subst d1 d2 e1 e2.
  exists ra, rb, ca, cb, c1, c2. split; [eapply dims_pair; eassumption|]. split; [eapply dims_pair; eassumption|]. split; [auto 8|].
  split; [unfold dim; rewrite S11; reflexivity|]. split; [unfold dim; rewrite S21; reflexivity|].
  split; [unfold dim; rewrite T11; reflexivity|]. split; [unfold dim; rewrite T21; reflexivity|].
  split; [exact Ht1|]. split; [exact Ht2|].
  split; [unfold qf_pairs_at; apply pairs_at; [assumption|lia]|]. split; [unfold qf_pairs_at; apply pairs_at; [assumption|lia]|].
  split; [intros m Hm; apply HL; assumption|]. split; [intros n Hn; apply HR; assumption|].
  destruct (bond_ok O HO h) as (Hb1 & _ & Hb2). destruct (bond_ok O HO (S h)) as (_ & _ & Hb5). destruct (bond_ok O HO (S (S h))) as (_ & Hb3 & Hb4).
  assert (HOl : mlinked 1 O 1) by apply HO.
  rewrite sandwich_QM; try assumption; try (destruct p; discriminate); try (destruct p'; discriminate).
  2:{ intros E. rewrite E in Hlen. cbn in Hlen. lia. }
  rewrite (O_split2 h ltac:(lia)) at 1. change (S1 :: S2 :: q) with ([S1; S2] ++ q). change (T1 :: T2 :: q') with ([T1; T2] ++ q').
  rewrite (QM_mid p [S1; S2] q p' [T1; T2] q' (firstn h O) [site O h; site O (S h)] (skipn (S (S h)) O) ra rb (bond O h) ca cb (bond O (S (S h))));
    try assumption; try reflexivity; try (rewrite firstn_length; unfold h; lia).
  2:{ exists c1, k. repeat split; auto. exists c2, ca. cbn. auto. }
  2:{ exists c1, k'. repeat split; auto. exists c2, cb. cbn. auto. }
  2:{ exists c1, c1, (bond O (S h)). repeat split; auto. exists c2, c2, (bond O (S (S h))). cbn. auto 8. }
  replace (pdims [S1; S2]) with [c1; c2] by (unfold pdims, dim; cbn [map]; rewrite S11, S21; reflexivity).
  replace (pdims [T1; T2]) with [c1; c2] by (unfold pdims, dim; cbn [map]; rewrite T11, T21; reflexivity).
  cbn [sumcfg nth].
  apply sum_ext. intros x Hx. apply sum_ext. intros i1 Hi1. apply sum_ext. intros i2 Hi2. apply sum_ext. intros z Hz. apply sum_ext. intros y Hy. apply sum_ext. intros j1 Hj1. apply sum_ext. intros j2 Hj2. apply sum_ext. intros w Hw.
  rewrite (chain_two S1 S2 i1 i2 x z _ _ _ _ _ S11 S21 Hz), (chain_two T1 T2 j1 j2 y w _ _ _ _ _ T11 T21 Hw).
  rewrite (get_pair S1 S2 _ _ _ _ _ x i1 i2 z S11 S21), (get_pair T1 T2 _ _ _ _ _ y j1 j2 w T11 T21) by assumption. f_equal. f_equal.
  unfold form2. apply sum_ext. intros m Hm.
  transitivity (sum (bond O (S (S h))) (fun n => sum (bond O (S h)) (fun h0 => QM p p' (firstn h O) 0 0 0 x y m * (get (site O h) [m; i1; j1; h0] * get (site O (S h)) [h0; i2; j2; n]) * QM q q' (skipn (S (S h)) O) z w n 0 0 0))).
  - apply sum_ext. intros n Hn. rewrite (mchain_two _ _ m n i1 j1 i2 j2 _ _ _ _ _ _ _ Ht1 Ht2 Hn). rewrite sum_mul_l, sum_mul_r. reflexivity.
  - apply sum_swap.
Qed.

Section Two.
Variables (f : qform) (p q p' q' : mps) (sense : Z).
Hypothesis Hsense : two_sites f sense = Ok (length p, length p + 1)%nat.
Hypothesis H0 : qinv0 O f.
Hypothesis Hpp : length p' = length p.
Hypothesis Hqq : length q' = length q.
Hypothesis Hlen : (length p + 2 + length q = length O)%nat.
Hypothesis HL : forall m ra rb, (m < bond O (length p))%nat -> linked 1 p ra -> linked 1 p' rb ->
     vten [1; 1; ra; rb]%nat (qf_left f (length p) m) (lenv_of (fun z w => QM p p' (firstn (length p) O) 0 0 0 z w m)).
Hypothesis HR : forall n ca cb, (n < bond O (length p + 2))%nat -> (0 < ca)%nat -> (0 < cb)%nat -> linked ca q 1 -> linked cb q' 1 ->
     vten [ca; cb; 1; 1]%nat (qf_right f (length p + 1) n) (renv_of (fun z w => QM q q' (skipn (length p + 2) O) z w n 0 0 0)).

Lemma two_matrix_value S1 S2 T1 T2 :
  linked 1 (p ++ S1 :: S2 :: q) 1 -> linked 1 (p' ++ T1 :: T2 :: q') 1 ->
  pdims (p ++ S1 :: S2 :: q) = odims O -> pdims (p' ++ T1 :: T2 :: q') = idims O ->
  exists M, two_site_matrix f sense = Ok M /\ (is_empty M = true \/ dims M = [nprod (dims (fold S1 2 S2 0)); nprod (dims (fold T1 2 T2 0))]) /\
    msandwich (fold S1 2 S2 0) M (fold T1 2 T2 0) = sandwich (p ++ S1 :: S2 :: q) O (p' ++ T1 :: T2 :: q').
Proof.
  intros HS HT HdS HdT. destruct (two_site_setup f p q p' q' S1 S2 T1 T2 H0 Hpp Hqq Hlen HL HR HS HT HdS HdT) as
    (ra & rb & ca & cb & d1 & d2 & DS & DT & Hpos & _ & _ & _ & _ & Ht1 & Ht2 & Hp1 & Hp2 & HL' & HR' & HQ).
  destruct (two_matrix_vten _ _ _ _ _ _ _ _ _ _ _ _ _ _ _ Ht1 Ht2 Hpos HL' HR') as (M & HM & HV).
  exists M. split; [unfold two_site_matrix; rewrite Hsense; cbn [bind]; rewrite Hp1, Hp2; exact HM|]. split.
  - destruct HV as [(E & _)|(_ & _ & E & _)]; [left; exact E|right]. rewrite E, DS, DT. reflexivity.
  - rewrite HQ. rewrite <- DS, <- DT.
    apply msandwich_sumcfg. intros u v Hu Hv. set (S := fold S1 2 S2 0) in *. set (T := fold T1 2 T2 0) in *.
    assert (Hou : (offset (dims S) u < nprod (dims S))%nat) by (apply offset_lt; exact Hu).
    assert (Hov : (offset (dims T) v < nprod (dims T))%nat) by (apply offset_lt; exact Hv).
    rewrite DS in *. rewrite DT in *.
    rewrite (vten_elem _ _ _ [offset [ra; d1; d2; ca] u; offset [rb; d1; d2; cb] v] HV) by (apply in_range_2; assumption).
    unfold mform2. cbn [nth]. rewrite !unravel_offset by assumption. reflexivity.
Qed.

Lemma apply_two_value S1 S2 T1 T2 :
  linked 1 (p ++ S1 :: S2 :: q) 1 -> linked 1 (p' ++ T1 :: T2 :: q') 1 ->
  pdims (p ++ S1 :: S2 :: q) = odims O -> pdims (p' ++ T1 :: T2 :: q') = idims O ->
  exists v, apply_two_site_matrix f (fold T1 2 T2 0) sense = Ok v /\ (is_empty v = true \/ dims v = dims (fold S1 2 S2 0)) /\
    sumcfg (dims (fold S1 2 S2 0)) (fun u => kconj (get (fold S1 2 S2 0) u) * elem v u) = sandwich (p ++ S1 :: S2 :: q) O (p' ++ T1 :: T2 :: q').
Proof.
  intros HS HT HdS HdT. destruct (two_site_setup f p q p' q' S1 S2 T1 T2 H0 Hpp Hqq Hlen HL HR HS HT HdS HdT) as
    (ra & rb & ca & cb & d1 & d2 & DS & DT & Hpos & _ & _ & _ & _ & Ht1 & Ht2 & Hp1 & Hp2 & HL' & HR' & HQ).
  destruct (apply_two_vten _ _ _ _ _ _ _ _ _ _ _ _ _ _ _ Ht1 Ht2 Hpos HL' HR' _ DT) as (M & HM & HV).
  exists M. split; [unfold apply_two_site_matrix; rewrite Hsense; cbn [bind]; rewrite Hp1, Hp2; exact HM|]. rewrite DS. split.
  - destruct HV as [(E & _)|(_ & _ & E & _)]; [left; exact E|right; exact E].
  - rewrite HQ. apply sumcfg_ext. intros u Hu. rewrite (vten_elem _ _ _ u HV) by exact Hu.
    rewrite sumcfg_mul_l. apply sumcfg_ext. intros s Hs. match goal with |- _ * (?b * _) = _ * ?b' * _ => change b' with b end. ring.
Qed.

(** The diagonal, when bra and ket have the same bonds *)
Lemma two_diag_value S1 S2 T1 T2 :
  linked 1 (p ++ S1 :: S2 :: q) 1 -> linked 1 (p' ++ T1 :: T2 :: q') 1 ->
  pdims (p ++ S1 :: S2 :: q) = odims O -> pdims (p' ++ T1 :: T2 :: q') = idims O ->
  dim S1 0 = dim T1 0 -> dim S2 2 = dim T2 2 ->
  exists M v, two_site_matrix f sense = Ok M /\ take_two_site_matrix_diag f sense = Ok v /\
    (is_empty v = true \/ dims v = [nprod (dims (fold S1 2 S2 0))]) /\
    forall r, (r < nprod (dims (fold S1 2 S2 0)))%nat -> elem v [r] = elem M [r; r].
Proof.
  intros HS HT HdS HdT Hl Hr. destruct (two_site_setup f p q p' q' S1 S2 T1 T2 H0 Hpp Hqq Hlen HL HR HS HT HdS HdT) as
    (ra & rb & ca & cb & d1 & d2 & DS & DT & Hpos & B1 & B2 & B3 & B4 & Ht1 & Ht2 & Hp1 & Hp2 & HL' & HR' & HQ).
  assert (Era : ra = rb) by congruence. assert (Eca : ca = cb) by congruence.
  destruct (two_matrix_vten _ _ _ _ _ _ _ _ _ _ _ _ _ _ _ Ht1 Ht2 Hpos HL' HR') as (M & HM & HV).
  destruct (two_diag_vten _ _ _ _ _ _ _ _ _ _ _ _ _ _ _ Ht1 Ht2 Hpos HL' HR' Era Eca) as (v & Hv & HW).
  exists M, v. split; [unfold two_site_matrix; rewrite Hsense; cbn [bind]; rewrite Hp1, Hp2; exact HM|].
  split; [unfold take_two_site_matrix_diag; rewrite Hsense; cbn [bind]; rewrite Hp1, Hp2; exact Hv|]. rewrite DS. split.
  - destruct HW as [(E & _)|(_ & _ & E & _)]; [left; exact E|right; exact E].
  - intros r Hrr. change (nprod [ra; d1; d2; ca]) with (ra * (d1 * (d2 * (ca * 1))))%nat in Hrr.
    rewrite (vten_elem _ _ _ [r] HW) by (apply in_range_1; exact Hrr).
    rewrite (vten_elem _ _ _ [r; r] HV) by (apply in_range_2; [exact Hrr|rewrite <- Era, <- Eca; exact Hrr]). reflexivity.
Qed.
End Two.

(** Hypotheses of [Two] for both senses *)
Lemma two_right_hyps f p C q p' C' q' : qinv O f p (C :: q) p' (C' :: q') ->
  two_sites f 1 = Ok (length p, length p + 1)%nat /\ qinv0 O f /\ length p' = length p /\ length q' = length q /\ (length p + 2 + length q = length O)%nat /\
  (forall m ra rb, (m < bond O (length p))%nat -> linked 1 p ra -> linked 1 p' rb ->
     vten [1; 1; ra; rb]%nat (qf_left f (length p) m) (lenv_of (fun z w => QM p p' (firstn (length p) O) 0 0 0 z w m))) /\
  (forall n ca cb, (n < bond O (length p + 2))%nat -> (0 < ca)%nat -> (0 < cb)%nat -> linked ca q 1 -> linked cb q' 1 ->
     vten [ca; cb; 1; 1]%nat (qf_right f (length p + 1) n) (renv_of (fun z w => QM q q' (skipn (length p + 2) O) z w n 0 0 0))).
Proof.
  intros (H0 & Hh & Hpp & Hqq & Hlen & HL & HR). cbn [length] in Hqq, Hlen.
  split; [unfold two_sites; rewrite Hh; pose proof H0 as (-> & _); cbn [Z.ltb Z.compare]; destruct (Nat.ltb_spec (length p + 1) (length O)); [reflexivity|lia]|].
  split; [exact H0|]. split; [exact Hpp|]. split; [lia|]. split; [lia|]. split.
  - intros m ra rb Hm Hp Hp'. eapply vten_ext; [apply (HL (length p) m ra rb (le_n _) Hm)|].
    + rewrite firstn_all. exact Hp.
    + rewrite <- Hpp, firstn_all. exact Hp'.
    + intros x _. unfold lenv_of, Lval. rewrite firstn_all. rewrite <- Hpp at 1. rewrite firstn_all. reflexivity.
  - intros n ca cb Hn Hca Hcb Hq Hq'. unfold qf_right. replace (length p + 1 + 1)%nat with (length p + 2)%nat by lia.
    assert (E : (length p + 2 - S (length p) = 1)%nat) by lia.
    eapply vten_ext; [apply (HR (length p + 2)%nat n ca cb ltac:(lia) Hn Hca Hcb); rewrite E; assumption|].
    intros x _. unfold renv_of, Rval. rewrite E. reflexivity.
Qed.

Lemma two_left_hyps f p C q p' C' q' : qinv O f (p ++ [C]) q (p' ++ [C']) q' ->
  two_sites f (-1) = Ok (length p, length p + 1)%nat /\ qinv0 O f /\ length p' = length p /\ length q' = length q /\ (length p + 2 + length q = length O)%nat /\
  (forall m ra rb, (m < bond O (length p))%nat -> linked 1 p ra -> linked 1 p' rb ->
     vten [1; 1; ra; rb]%nat (qf_left f (length p) m) (lenv_of (fun z w => QM p p' (firstn (length p) O) 0 0 0 z w m))) /\
  (forall n ca cb, (n < bond O (length p + 2))%nat -> (0 < ca)%nat -> (0 < cb)%nat -> linked ca q 1 -> linked cb q' 1 ->
     vten [ca; cb; 1; 1]%nat (qf_right f (length p + 1) n) (renv_of (fun z w => QM q q' (skipn (length p + 2) O) z w n 0 0 0))).
Proof.
  intros (H0 & Hh & Hpp & Hqq & Hlen & HL & HR). rewrite app_length in Hh, Hlen. rewrite !app_length in Hpp. rewrite app_length in HR. cbn [length] in *.
  split; [unfold two_sites; rewrite Hh; cbn [Z.ltb Z.compare]; destruct (Nat.ltb_spec 0 (length p + 1)); [do 2 f_equal; lia|lia]|].
  assert (Hp0 : length p' = length p) by lia.
  split; [exact H0|]. split; [exact Hp0|]. split; [exact Hqq|]. split; [lia|]. split.
  - intros m ra rb Hm Hp Hp'. eapply vten_ext; [apply (HL (length p) m ra rb); [rewrite app_length; lia|exact Hm| |]|].
    + rewrite firstn_app_le, firstn_all by lia. exact Hp.
    + rewrite firstn_app_le by lia. rewrite <- Hp0, firstn_all. exact Hp'.
    + intros x _. unfold lenv_of, Lval. rewrite !firstn_app_le by lia. rewrite firstn_all. rewrite <- Hp0 at 1. rewrite firstn_all. reflexivity.
  - intros n ca cb Hn Hca Hcb Hq Hq'. unfold qf_right. replace (length p + 1 + 1)%nat with (length p + 2)%nat by lia.
    assert (E : (length p + 2 - S (length p + 1) = 0)%nat) by lia.
    eapply vten_ext; [apply (HR (length p + 2)%nat n ca cb ltac:(lia) Hn Hca Hcb); rewrite E; assumption|].
    intros x _. unfold renv_of, Rval. rewrite E. reflexivity.
Qed.
End Vals.
End Facts.
