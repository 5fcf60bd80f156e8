(** * LinearForm: value of the vectors it returns *)
From Coq Require Import Bool List Arith ZArith Lia Ring.
From Verif Require Import Scalar ScalarFacts Tensor TensorFacts Spec MpsModel MpsFacts EnvFacts ExpectedFacts MpoSpec FormModel FormSpec LFormFacts.
Import ListNotations.
Local Open Scope K_scope.

Section Facts.
Context {SC : Scalar}.
Add Ring Kring : k_ring.

(** ** The loop that adds up the terms *)
Lemma add_terms_value n term (t : nat -> tensor) ds : (0 < n)%nat -> nprod ds <> 0%nat ->
  (forall i, (i < n)%nat -> term i = Ok (t i) /\ wf (t i) /\ dims (t i) = ds) ->
  exists v, add_terms n term = Ok v /\ wf v /\ dims v = ds /\
    forall x, in_range ds x -> get v x = sum n (fun i => get (t i) x).
Proof.
  intros Hn Hds. induction n as [|n IH]; [lia|]. intros H. unfold add_terms. rewrite seq_S, fold_left_app. cbn [fold_left Nat.add].
  fold (add_terms n term). destruct (H n ltac:(lia)) as (Ht & Hw & Hd).
  destruct n as [|n].
  - unfold add_terms. cbn [seq fold_left bind]. rewrite Ht. cbn [bind]. unfold maybe_add. cbn [is_empty empty data].
    exists (t 0%nat). repeat split; auto. intros x Hx. rewrite sum_1. reflexivity.
  - destruct IH as (v & Hv & Hwv & Hdv & Hg); [lia|intros i Hi; apply H; lia|].
    rewrite Hv. cbn [bind]. rewrite Ht. cbn [bind]. unfold maybe_add. rewrite (is_empty_wf v) by (try assumption; congruence).
    exists (tadd v (t (S n))). split; [reflexivity|]. split; [apply wf_tadd; congruence|]. split; [exact Hdv|].
    intros x Hx. rewrite get_tadd by (try assumption; congruence). rewrite Hg by exact Hx. reflexivity.
Qed.

(** ** compose and compose4 *)
Lemma seg_idem M : (if is_empty M then ones1111 else M) = seg M.
Proof. reflexivity. Qed.

Lemma lf_compose_value L R P ra rb ca cb d : dims (seg L) = [1; 1; ra; rb]%nat -> dims (seg R) = [ca; cb; 1; 1]%nat ->
  dims P = [ra; d; ca]%nat -> exists v, lf_compose L P R = Ok v /\ wf v /\ dims v = [rb; d; cb] /\
  forall y i w, (y < rb)%nat -> (i < d)%nat -> (w < cb)%nat -> get v [y; i; w] =
    sum ra (fun x => sum ca (fun z => get (seg L) [0; 0; x; y]%nat * get P [x; i; z] * get (seg R) [z; w; 0; 0]%nat)).
Proof.
  intros HL HR HP. unfold lf_compose. rewrite !seg_idem. set (l := seg L) in *. set (r := seg R) in *.
  unfold dim at 1 2. rewrite HR. cbn [nth Nat.eqb andb].
  replace (dim l 2) with ra by (unfold dim; rewrite HL; reflexivity).
  replace (dim l 3) with rb by (unfold dim; rewrite HL; reflexivity).
  replace (dim r 0) with ca by (unfold dim; rewrite HR; reflexivity).
  replace (dim r 1) with cb by (unfold dim; rewrite HR; reflexivity).
  set (C := fold (reshape l [ra; rb]) 0 P 0).
  assert (HC : dims C = [rb; d; ca]) by (unfold C, fold; cbn [dims mk reshape remove_nth]; rewrite HP; reflexivity).
  eexists. split; [reflexivity|]. split; [apply wf_mk|].
  split; [unfold fold, rank; cbn [dims mk]; rewrite HC; reflexivity|].
  intros y i w Hy Hi Hw. unfold fold at 1. unfold rank, dim. rewrite HC. cbn [length Nat.sub remove_nth app dims reshape nth].
  rewrite get_mk by (apply in_range_3; assumption). cbn [firstn skipn insert_nth].
  transitivity (sum ca (fun z => sum ra (fun x => get l [0; 0; x; y]%nat * get P [x; i; z]) * get r [z; w; 0; 0]%nat)).
  - apply sum_ext. intros z Hz. f_equal.
    + unfold C, fold, rank, dim. cbn [dims reshape]. rewrite HP. cbn [length Nat.sub remove_nth app nth].
      rewrite get_mk by (apply in_range_3; assumption). cbn [firstn skipn insert_nth]. apply sum_ext. intros x Hx. f_equal.
      apply get_reshape. rewrite HL. cbn. ring.
    + apply get_reshape. rewrite HR. cbn. ring.
  - rewrite sum_swap. apply sum_ext. intros z Hz. rewrite sum_mul_r. reflexivity.
Qed.

Lemma lf_compose4_value L R P1 P2 ra rb ca cb d1 d2 m : dims (seg L) = [1; 1; ra; rb]%nat -> dims (seg R) = [ca; cb; 1; 1]%nat ->
  dims P1 = [ra; d1; m]%nat -> dims P2 = [m; d2; ca]%nat ->
  exists v, lf_compose4 L P1 P2 R = Ok v /\ wf v /\ dims v = [rb; d1; d2; cb] /\
  forall y i j w, (y < rb)%nat -> (i < d1)%nat -> (j < d2)%nat -> (w < cb)%nat -> get v [y; i; j; w] =
    sum ra (fun x => sum ca (fun z => get (seg L) [0; 0; x; y]%nat *
       sum m (fun k => get P1 [x; i; k] * get P2 [k; j; z]) * get (seg R) [z; w; 0; 0]%nat)).
Proof.
  intros HL HR HP1 HP2. unfold lf_compose4. rewrite !seg_idem. set (l := seg L) in *. set (r := seg R) in *.
  unfold dim at 1 2. rewrite HR. cbn [nth Nat.eqb andb].
  replace (dim l 2) with ra by (unfold dim; rewrite HL; reflexivity).
  replace (dim l 3) with rb by (unfold dim; rewrite HL; reflexivity).
  replace (dim r 0) with ca by (unfold dim; rewrite HR; reflexivity).
  replace (dim r 1) with cb by (unfold dim; rewrite HR; reflexivity).
  replace (rank P1 - 1)%nat with 2%nat by (unfold rank; rewrite HP1; reflexivity).
  set (P := fold P1 2 P2 0).
  assert (HP : dims P = [ra; d1; d2; ca]) by (unfold P, fold; cbn [dims mk]; rewrite HP1, HP2; reflexivity).
  set (C := fold (reshape l [ra; rb]) 0 P 0).
  assert (HC : dims C = [rb; d1; d2; ca]) by (unfold C, fold; cbn [dims mk reshape remove_nth]; rewrite HP; reflexivity).
  eexists. split; [reflexivity|]. split; [apply wf_mk|].
  split; [unfold fold, rank; cbn [dims mk]; rewrite HC; reflexivity|].
  intros y i j w Hy Hi Hj Hw. unfold fold at 1. unfold rank, dim. rewrite HC. cbn [length Nat.sub remove_nth app dims reshape nth].
  rewrite get_mk by (apply in_range_4; assumption). cbn [firstn skipn insert_nth].
  transitivity (sum ca (fun z => sum ra (fun x => get l [0; 0; x; y]%nat * sum m (fun k => get P1 [x; i; k] * get P2 [k; j; z])) * get r [z; w; 0; 0]%nat)).
  - apply sum_ext. intros z Hz. f_equal.
    + unfold C, fold, rank, dim. cbn [dims reshape]. rewrite HP. cbn [length Nat.sub remove_nth app nth].
      rewrite get_mk by (apply in_range_4; assumption). cbn [firstn skipn insert_nth]. apply sum_ext. intros x Hx. f_equal.
      * apply get_reshape. rewrite HL. cbn. ring.
      * unfold P, fold, rank, dim. rewrite HP1, HP2. cbn [length Nat.sub remove_nth app nth].
        rewrite get_mk by (apply in_range_4; assumption). reflexivity.
    + apply get_reshape. rewrite HR. cbn. ring.
  - rewrite sum_swap. apply sum_ext. intros z Hz. rewrite sum_mul_r. reflexivity.
Qed.

(** ** From transfer matrices to inner products *)
Lemma TM_inner a b : linked 1 a 1 -> linked 1 b 1 -> a <> [] -> b <> [] -> pdims a = pdims b ->
  TM a b (nones (length b)) 0 0 0 0 = inner (pdims b) (amp a) (amp b).
Proof.
  intros Ha Hb Hna Hnb Hd. rewrite <- melem_id. unfold TM, melem. rewrite Hd.
  assert (Eamp : forall c, c <> [] -> linked 1 c 1 -> forall is, amp c is = chain c is 0 0).
  { intros c Hc HL is. unfold amp. rewrite (linked_left_bond 1 c 1) by assumption. rewrite sum_1. reflexivity. }
  apply sumcfg_ext. intros is His. apply sumcfg_ext. intros js Hjs.
  rewrite (Eamp a), (Eamp b) by assumption. do 2 f_equal.
  rewrite <- (product_op_id 0). rewrite (nones_map _ 0).
  rewrite (prodop_product_op (fun _ => None) 0 is js (length b)); [reflexivity| |];
    [rewrite (in_range_length _ _ His)|rewrite (in_range_length _ _ Hjs)]; apply length_pdims.
Qed.

Lemma nones_S n : nones (S n) = None :: nones n. Proof. reflexivity. Qed.

Lemma prodop_nones is js : length js = length is -> prodop (nones (length is)) is js = id_op is js.
Proof.
  intros H. rewrite <- (product_op_id 0), (nones_map _ 0). apply (prodop_product_op (fun _ => None) 0 is js (length is)); auto.
Qed.

Lemma TM_id M N x y z w : pdims M = pdims N ->
  TM M N (nones (length N)) x y z w = sumcfg (pdims N) (fun is => kconj (chain M is x z) * chain N is y w).
Proof.
  intros Hd. unfold TM. rewrite Hd. apply sumcfg_ext. intros is His.
  rewrite <- (sumcfg_id_op (pdims N) is (fun js => kconj (chain M is x z) * chain N js y w)) by exact His.
  apply sumcfg_ext. intros js Hjs. replace (length N) with (length is) by (rewrite (in_range_length _ _ His); apply length_pdims).
  rewrite prodop_nones; [ring|]. rewrite (in_range_length _ _ His), (in_range_length _ _ Hjs). reflexivity.
Qed.

(** A segment in the middle. *)
Lemma TM_mid b1 M b2 p N q ra rb ca cb : linked 1 b1 ra -> linked 1 p rb -> linked ra M ca -> linked rb N cb ->
  linked ca b2 1 -> linked cb q 1 -> pdims b1 = pdims p -> pdims M = pdims N ->
  TM (b1 ++ M ++ b2) (p ++ N ++ q) (nones (length (p ++ N ++ q))) 0 0 0 0 =
  sum rb (fun y => sumcfg (pdims N) (fun is => sum cb (fun w =>
    sum ra (fun x => sum ca (fun z => TM b1 p (nones (length p)) 0 0 x y * kconj (chain M is x z) * TM b2 q (nones (length q)) z w 0 0))
    * chain N is y w))).
Proof.
  intros Hb1 Hp HM HN Hb2 Hq Ho Hd. rewrite !app_length, !nones_app.
  assert (L1 : length p = length b1) by (rewrite <- !length_pdims, Ho; reflexivity).
  assert (L2 : length N = length M) by (rewrite <- !length_pdims, Hd; reflexivity).
  rewrite (TM_app 1 1 b1 p (nones (length p)) ra rb (M ++ b2) (N ++ q) _ 1 1); try assumption; try lia.
  2: apply linked_app; eauto.
  2: apply linked_app; eauto.
  2: rewrite L1; apply ops_ok_nones; assumption.
  transitivity (sum rb (fun y => sum ra (fun x => TM b1 p (nones (length p)) 0 0 x y *
     sum ca (fun z => sum cb (fun w => sumcfg (pdims N) (fun is => kconj (chain M is x z) * chain N is y w) * TM b2 q (nones (length q)) z w 0 0))))).
  { rewrite sum_swap. apply sum_ext. intros y Hy. apply sum_ext. intros x Hx. f_equal.
    rewrite (TM_app ra rb M N (nones (length N)) ca cb b2 q (nones (length q)) 1 1); try assumption.
    2: rewrite L2; apply ops_ok_nones; assumption.
    apply sum_ext. intros z Hz. apply sum_ext. intros w Hw. f_equal. apply TM_id. exact Hd. }
  apply sum_ext. intros y Hy.
  transitivity (sum ra (fun x => sum ca (fun z => sumcfg (pdims N) (fun is => sum cb (fun w =>
     TM b1 p (nones (length p)) 0 0 x y * kconj (chain M is x z) * TM b2 q (nones (length q)) z w 0 0 * chain N is y w))))).
  { apply sum_ext. intros x Hx. rewrite sum_mul_l. apply sum_ext. intros z Hz. rewrite sum_mul_l. rewrite sumcfg_sum_swap.
    apply sum_ext. intros w Hw. rewrite sumcfg_mul_r, sumcfg_mul_l. apply sumcfg_ext. intros i Hi. ring. }
  transitivity (sum ra (fun x => sumcfg (pdims N) (fun is => sum cb (fun w => sum ca (fun z => 
     TM b1 p (nones (length p)) 0 0 x y * kconj (chain M is x z) * TM b2 q (nones (length q)) z w 0 0 * chain N is y w))))).
  { apply sum_ext. intros x Hx. rewrite <- sumcfg_sum_swap. apply sumcfg_ext. intros i Hi. apply sum_swap. }
  rewrite <- sumcfg_sum_swap. apply sumcfg_ext. intros i Hi. rewrite sum_swap. apply sum_ext. intros w Hw.
  rewrite sum_mul_r. apply sum_ext. intros x Hx. rewrite sum_mul_r. reflexivity.
Qed.

Lemma chain_one A i x z l d c : dims A = [l; d; c] -> (z < c)%nat -> chain [A] [i] x z = get A [x; i; z].
Proof. intros H Hz. cbn [chain]. unfold dim. rewrite H. cbn [nth]. rewrite sum_delta_r by exact Hz. reflexivity. Qed.

Lemma chain_two A B i j x z l d m d' c : dims A = [l; d; m] -> dims B = [m; d'; c] -> (z < c)%nat ->
  chain [A; B] [i; j] x z = sum m (fun k => get A [x; i; k] * get B [k; j; z]).
Proof.
  intros H H' Hz. cbn [chain]. unfold dim. rewrite H, H'. cbn [nth]. apply sum_ext. intros k Hk. f_equal.
  rewrite sum_delta_r by exact Hz. reflexivity.
Qed.

(** ** The vectors *)
Section Inv.
Variables (ws : list K) (bras : list mps) (ds : list nat).
Hypothesis Hg : good_bras ws bras ds.

Lemma weight_at f i : linv0 ws bras ds f -> (i < length bras)%nat -> lf_weight_at f i = Ok (nth i ws 0).
Proof.
  intros (H & _) Hi. unfold lf_weight_at. rewrite H. destruct Hg as (_ & Hl & _).
  rewrite (nth_error_nth' ws 0) by lia. reflexivity.
Qed.

Lemma bra_split3 i n : (i < length bras)%nat -> (n < length ds)%nat ->
  bra bras i = firstn n (bra bras i) ++ site (bra bras i) n :: skipn (S n) (bra bras i).
Proof.
  intros Hi Hn. rewrite <- (firstn_skipn n (bra bras i)) at 1. f_equal. apply skipn_nth. rewrite (bra_len ws bras ds Hg i Hi). exact Hn.
Qed.

Lemma single_site_value f p q T : linv ws bras ds f p q -> linked 1 (p ++ T :: q) 1 -> pdims (p ++ T :: q) = ds ->
  exists v, single_site_vector f = Ok v /\ wf v /\ dims v = dims T /\
    sumcfg (dims T) (fun x => get v x * get T x) = overlap ws bras (p ++ T :: q).
Proof.
  intros (H0 & Hh & Hlen & HL & HR) Hlk Hpd.
  pose proof Hlk as Hlk'. apply linked_app in Hlk'. destruct Hlk' as (l & Hp & HT). pose proof HT as (d & c & T1 & T2 & T3 & T4 & Hq).
  assert (Hl : (0 < l)%nat) by (eapply linked_pos; eauto).
  assert (Hnb : lf_nbras f = length bras) by (unfold lf_nbras; destruct H0 as (_ & -> & _); reflexivity).
  assert (HT' : linked l [T] c) by (cbn; exists d, c; auto).
  (* each term *)
  assert (Hterm : forall i, (i < length bras)%nat -> exists t,
    bind (lf_weight_at f i) (fun w => lf_compose (lf_left f i (lf_here f)) (tconj (tscale w (lf_bra_site f i (lf_here f)))) (lf_right f i (lf_here f))) = Ok t
    /\ wf t /\ dims t = [l; d; c] /\
    sumcfg [l; d; c] (fun x => get t x * get T x) = kconj (nth i ws 0) * inner ds (amp (nth i bras [])) (amp (p ++ T :: q))).
  { intros i Hi. rewrite (weight_at f i H0 Hi). cbn [bind].
    assert (Eb : lf_bra_site f i (lf_here f) = site (bra bras i) (length p))
      by (unfold lf_bra_site; destruct H0 as (_ & -> & _); rewrite Hh; reflexivity).
    rewrite Eb, Hh. clear Eb. set (A := site (bra bras i) (length p)).
    destruct (bra_ok ws bras ds Hg i Hi) as (Hbl & Hbn & Hbd).
    assert (Hsp : bra bras i = firstn (length p) (bra bras i) ++ A :: skipn (S (length p)) (bra bras i)) by (apply bra_split3; lia).
    destruct (HL i (length p) Hi (le_n _)) as (D1 & _ & ra & rb & B1 & B2 & EL). rewrite firstn_all in *.
    destruct (HR i (length p + 1)%nat Hi ltac:(lia) ltac:(lia)) as (D2 & _ & la & lb & Q0 & Q0' & Q1 & Q2 & ER).
    replace (length p + 1 - S (length p))%nat with 0%nat in * by lia. change (skipn 0 q) with q in *.
    replace (length p + 1)%nat with (S (length p)) in * by lia.
    change (lf_left f i (S (length p))) with (nth (S (length p)) (nth i (lf_matrix f) []) empty) in ER.
    unfold lf_right. replace (length p + 1)%nat with (S (length p)) by lia.
    set (R := nth (S (length p)) _ _) in *. set (L := lf_left f i (length p)) in *.
    set (b1 := firstn (length p) (bra bras i)) in *. set (b2 := skipn (S (length p)) (bra bras i)) in *.
    rewrite Hsp in Hbl. apply linked_app in Hbl. destruct Hbl as (m & Hm1 & Hm2).
    assert (m = ra) as -> by (eapply linked_right_unique; eauto).
    pose proof Hm2 as (da & ca & A1 & A2 & A3 & A4 & Hm3).
    assert (rb = l) as -> by (eapply linked_right_unique; eauto).
    assert (Ebd : pdims b1 = pdims p /\ dim A 1 = dim T 1 /\ pdims b2 = pdims q).
    { rewrite <- Hpd, Hsp in Hbd. rewrite !pdims_app in Hbd. cbn [pdims map] in Hbd.
      apply app_inj_len in Hbd; [|rewrite !length_pdims; unfold b1; rewrite firstn_length, (bra_len ws bras ds Hg i Hi); lia].
      destruct Hbd as (Hbd1 & Hbd). injection Hbd as Hbd2 Hbd3. auto. }
    destruct Ebd as (E1 & E2 & E3).
    assert (da = d) as -> by (unfold dim in E2; rewrite A1, T1 in E2; exact E2).
    assert (Eca : la = ca /\ lb = c).
    { clear - E3 Hm3 Hq Q1 Q2. clearbody b2. destruct q as [|q0 q1].
      - destruct b2; [|discriminate E3]. cbn in Hm3, Hq, Q1, Q2. split; congruence.
      - destruct b2 as [|b0 b2]; [discriminate E3|].
        split; [refine (linked_left_unique _ _ (b0 :: b2) _ _ Q1 Hm3)|refine (linked_left_unique _ _ (q0 :: q1) _ _ Q2 Hq)]; discriminate. }
    destruct Eca as (-> & ->).
    pose proof EL as (_ & HdL & _ & _ & _ & _ & GL). pose proof ER as (_ & HdR & _ & _ & _ & _ & GR).
    set (w := nth i ws 0).
    destruct (lf_compose_value L R (tconj (tscale w A)) ra l ca c d HdL HdR) as (v & Hv & Hwv & Hdv & Hgv); [exact A1|].
    exists v. split; [exact Hv|]. split; [exact Hwv|]. split; [exact Hdv|].
    change (nth i bras []) with (bra bras i).
    rewrite <- Hpd. rewrite <- (TM_inner (bra bras i) (p ++ T :: q)); try assumption.
    4: { rewrite Hpd. exact Hbd. }
    2: { destruct (bra_ok ws bras ds Hg i Hi) as (X & _ & _). exact X. }
    2: { destruct p; discriminate. }
    rewrite Hsp. change (A :: b2) with ([A] ++ b2). change (T :: q) with ([T] ++ q).
    rewrite (TM_mid b1 [A] b2 p [T] q ra l ca c); try assumption.
    2: { cbn. exists d, ca. auto. }
    2: { cbn. f_equal. exact E2. }
    rewrite sum_mul_l. cbn [sumcfg]. apply sum_ext. intros y Hy.
    replace (pdims [T]) with [d] by (cbn; unfold dim; rewrite T1; reflexivity). cbn [sumcfg].
    rewrite sum_mul_l. apply sum_ext. intros j Hj. rewrite sum_mul_l. apply sum_ext. intros z Hz.
    rewrite Hgv by assumption. rewrite (chain_one T j y z l d c T1 Hz).
    transitivity ((kconj w * sum ra (fun x => sum ca (fun z0 => TM b1 p (nones (length p)) 0 0 x y * kconj (chain [A] [j] x z0) * TM b2 q (nones (length q)) z0 z 0 0))) * get T [y; j; z]); [|ring].
    f_equal. rewrite sum_mul_l. apply sum_ext. intros x Hx. rewrite sum_mul_l. apply sum_ext. intros z0 Hz0.
    rewrite GL, GR by (try assumption; lia). rewrite (chain_one A j x z0 ra d ca A1 Hz0).
    rewrite get_tconj, get_tscale; [|exact A2|rewrite A1; apply in_range_3; assumption]. rewrite kconj_mul. ring. }
  assert (Hch : exists t : nat -> tensor, forall i, (i < length bras)%nat ->
    bind (lf_weight_at f i) (fun w => lf_compose (lf_left f i (lf_here f)) (tconj (tscale w (lf_bra_site f i (lf_here f)))) (lf_right f i (lf_here f))) = Ok (t i)
    /\ wf (t i) /\ dims (t i) = [l; d; c] /\
    sumcfg [l; d; c] (fun x => get (t i) x * get T x) = kconj (nth i ws 0) * inner ds (amp (nth i bras [])) (amp (p ++ T :: q))).
  { exists (fun i => match bind (lf_weight_at f i) (fun w => lf_compose (lf_left f i (lf_here f)) (tconj (tscale w (lf_bra_site f i (lf_here f)))) (lf_right f i (lf_here f))) with Ok t => t | Abort => empty end).
    intros i Hi. destruct (Hterm i Hi) as (t & E & H). rewrite E. split; [reflexivity|exact H]. }
  destruct Hch as (t & Ht).
  destruct (add_terms_value (length bras) (fun i => bind (lf_weight_at f i) (fun w => lf_compose (lf_left f i (lf_here f)) (tconj (tscale w (lf_bra_site f i (lf_here f)))) (lf_right f i (lf_here f)))) t [l; d; c]) as (v & Hv & Hwv & Hdv & Hgv).
  - apply (bras_pos ws bras ds Hg).
  - cbn. nia.
  - intros i Hi. destruct (Ht i Hi) as (E1 & E2 & E3 & _). auto.
  - exists v. unfold single_site_vector. rewrite Hnb. split; [exact Hv|]. split; [exact Hwv|]. rewrite T1. split; [exact Hdv|].
    unfold overlap. rewrite Hpd.
    transitivity (sumcfg [l; d; c] (fun x => sum (length bras) (fun i => get (t i) x * get T x))).
    + apply sumcfg_ext. intros x Hx. rewrite Hgv by exact Hx. rewrite sum_mul_r. reflexivity.
    + rewrite sumcfg_sum_swap. apply sum_ext. intros i Hi. destruct (Ht i Hi) as (_ & _ & _ & E). exact E.
Qed.

(** Two sites *)
Lemma two_site_value f n p q A B : linv0 ws bras ds f -> length p = n -> (n + 2 + length q = length ds)%nat ->
  (forall i, (i < length bras)%nat -> lenv (firstn n (bra bras i)) p (lf_left f i n)) ->
  (forall i, (i < length bras)%nat -> renv (skipn (n + 2) (bra bras i)) q (lf_left f i (n + 2))) ->
  linked 1 (p ++ A :: B :: q) 1 -> pdims (p ++ A :: B :: q) = ds ->
  exists v, add_terms (lf_nbras f) (fun k => bind (lf_weight_at f k) (fun w =>
      lf_compose4 (lf_left f k n) (tconj (tscale w (lf_bra_site f k n))) (tconj (lf_bra_site f k (n + 1))) (lf_right f k (n + 1)))) = Ok v /\
    wf v /\ dims v = [dim A 0; dim A 1; dim B 1; dim B 2] /\
    sum (dim A 0) (fun a => sum (dim A 1) (fun i => sum (dim B 1) (fun j => sum (dim B 2) (fun b =>
      get v [a; i; j; b] * sum (dim A 2) (fun m => get A [a; i; m] * get B [m; j; b]))))) =
    overlap ws bras (p ++ A :: B :: q).
Proof.
  intros H0 Hn Hlen HL HR Hlk Hpd.
  pose proof Hlk as Hlk'. apply linked_app in Hlk'. destruct Hlk' as (l & Hp & HT).
  pose proof HT as (d1 & m & T1 & T2 & T3 & T4 & HT'). pose proof HT' as (d2 & c & U1 & U2 & U3 & U4 & Hq).
  assert (Hl : (0 < l)%nat) by (eapply linked_pos; eauto).
  assert (Hnb : lf_nbras f = length bras) by (unfold lf_nbras; destruct H0 as (_ & -> & _); reflexivity).
  replace (dim A 0) with l by (unfold dim; rewrite T1; reflexivity).
  replace (dim A 1) with d1 by (unfold dim; rewrite T1; reflexivity).
  replace (dim A 2) with m by (unfold dim; rewrite T1; reflexivity).
  replace (dim B 1) with d2 by (unfold dim; rewrite U1; reflexivity).
  replace (dim B 2) with c by (unfold dim; rewrite U1; reflexivity).
  assert (HAB : linked l [A; B] c) by (cbn; exists d1, m; repeat (split; [assumption|]); exists d2, c; auto).
  set (TERM := fun k => bind (lf_weight_at f k) (fun w =>
      lf_compose4 (lf_left f k n) (tconj (tscale w (lf_bra_site f k n))) (tconj (lf_bra_site f k (n + 1))) (lf_right f k (n + 1)))).
  assert (Hterm : forall i, (i < length bras)%nat -> exists t, TERM i = Ok t /\ wf t /\ dims t = [l; d1; d2; c] /\
    sum l (fun a => sum d1 (fun i => sum d2 (fun j => sum c (fun b =>
      get t [a; i; j; b] * sum m (fun k => get A [a; i; k] * get B [k; j; b]))))) =
      kconj (nth i ws 0) * inner ds (amp (nth i bras [])) (amp (p ++ A :: B :: q))).
  { intros i Hi. unfold TERM. rewrite (weight_at f i H0 Hi). cbn [bind].
    assert (Eb : forall k, lf_bra_site f i k = site (bra bras i) k)
      by (intros k; unfold lf_bra_site; destruct H0 as (_ & -> & _); reflexivity).
    rewrite !Eb. clear Eb. set (X := site (bra bras i) n). set (Y := site (bra bras i) (n + 1)).
    destruct (bra_ok ws bras ds Hg i Hi) as (Hbl & Hbn & Hbd). pose proof Hbl as Hbl0.
    assert (Hsp : bra bras i = firstn n (bra bras i) ++ X :: Y :: skipn (n + 2) (bra bras i)).
    { rewrite (bra_split3 i n Hi) at 1 by lia. f_equal. f_equal. unfold Y. replace (n + 2)%nat with (S (n + 1)) by lia.
      replace (n + 1)%nat with (S n) by lia. apply skipn_nth. rewrite (bra_len ws bras ds Hg i Hi). lia. }
    destruct (HL i Hi) as (D1 & _ & ra & rb & B1 & B2 & EL).
    destruct (HR i Hi) as (D2 & _ & la & lb & Q0 & Q0' & Q1 & Q2 & ER).
    change (lf_left f i (n + 2)) with (nth (n + 2) (nth i (lf_matrix f) []) empty) in ER.
    unfold lf_right. replace (n + 1 + 1)%nat with (n + 2)%nat by lia.
    set (R := nth (n + 2) _ _) in *. set (L := lf_left f i n) in *.
    set (b1 := firstn n (bra bras i)) in *. set (b2 := skipn (n + 2) (bra bras i)) in *.
    rewrite Hsp in Hbl. apply linked_app in Hbl. destruct Hbl as (m' & Hm1 & Hm2).
    assert (m' = ra) as -> by (eapply linked_right_unique; eauto).
    pose proof Hm2 as (da & mb & A1 & A2 & A3 & A4 & Hm3). pose proof Hm3 as (db & ca & V1 & V2 & V3 & V4 & Hm4).
    assert (rb = l) as -> by (eapply linked_right_unique; eauto).
    assert (Ebd : pdims b1 = pdims p /\ pdims [X; Y] = pdims [A; B] /\ pdims b2 = pdims q).
    { rewrite <- Hpd, Hsp in Hbd. change (X :: Y :: b2) with ([X; Y] ++ b2) in Hbd. change (A :: B :: q) with ([A; B] ++ q) in Hbd.
      rewrite !pdims_app in Hbd.
      apply app_inj_len in Hbd; [|rewrite !length_pdims; unfold b1; rewrite firstn_length, (bra_len ws bras ds Hg i Hi); lia].
      destruct Hbd as (Hbd1 & Hbd). apply app_inj_len in Hbd; [|reflexivity]. destruct Hbd as (Hbd2 & Hbd3). auto. }
    destruct Ebd as (E1 & E2 & E3). pose proof E2 as E2'. cbn in E2'. injection E2' as E2a E2b.
    assert (da = d1) as -> by (unfold dim in E2a; rewrite A1, T1 in E2a; exact E2a).
    assert (db = d2) as -> by (unfold dim in E2b; rewrite V1, U1 in E2b; exact E2b).
    assert (Eca : la = ca /\ lb = c).
    { clear - E3 Hm4 Hq Q1 Q2. clearbody b2. destruct q as [|q0 q1].
      - destruct b2; [|discriminate E3]. cbn in Hm4, Hq, Q1, Q2. split; congruence.
      - destruct b2 as [|b0 b2]; [discriminate E3|].
        split; [refine (linked_left_unique _ _ (b0 :: b2) _ _ Q1 Hm4)|refine (linked_left_unique _ _ (q0 :: q1) _ _ Q2 Hq)]; discriminate. }
    destruct Eca as (-> & ->).
    pose proof EL as (_ & HdL & _ & _ & _ & _ & GL). pose proof ER as (_ & HdR & _ & _ & _ & _ & GR).
    set (w := nth i ws 0).
    destruct (lf_compose4_value L R (tconj (tscale w X)) (tconj Y) ra l ca c d1 d2 mb HdL HdR A1 V1) as (v & Hv & Hwv & Hdv & Hgv).
    exists v. split; [exact Hv|]. split; [exact Hwv|]. split; [exact Hdv|].
    change (nth i bras []) with (bra bras i).
    rewrite <- Hpd. rewrite <- (TM_inner (bra bras i) (p ++ A :: B :: q)); try assumption.
    3: { rewrite Hpd. exact Hbd. }
    2: { destruct p; discriminate. }
    rewrite Hsp. change (X :: Y :: b2) with ([X; Y] ++ b2). change (A :: B :: q) with ([A; B] ++ q).
    rewrite (TM_mid b1 [X; Y] b2 p [A; B] q ra l ca c); try assumption.
    2: { cbn. exists d1, mb. repeat (split; [assumption|]). exists d2, ca. auto. }
    rewrite sum_mul_l. apply sum_ext. intros y Hy.
    replace (pdims [A; B]) with [d1; d2] by (cbn; unfold dim; rewrite T1, U1; reflexivity). cbn [sumcfg].
    rewrite sum_mul_l. apply sum_ext. intros j Hj. rewrite sum_mul_l. apply sum_ext. intros k Hk. rewrite sum_mul_l. apply sum_ext. intros z Hz.
    rewrite Hgv by assumption. rewrite (chain_two A B j k y z l d1 m d2 c T1 U1 Hz).
    transitivity ((kconj w * sum ra (fun x => sum ca (fun z0 => TM b1 p (nones (length p)) 0 0 x y * kconj (chain [X; Y] [j; k] x z0) * TM b2 q (nones (length q)) z0 z 0 0))) * sum m (fun k0 => get A [y; j; k0] * get B [k0; k; z])); [|ring].
    f_equal. rewrite sum_mul_l. apply sum_ext. intros x Hx. rewrite sum_mul_l. apply sum_ext. intros z0 Hz0.
    rewrite GL, GR by (try assumption; lia). rewrite (chain_two X Y j k x z0 ra d1 mb d2 ca A1 V1 Hz0).
    transitivity (TM b1 p (nones (length p)) 0 0 x y * (kconj w * kconj (sum mb (fun k0 => get X [x; j; k0] * get Y [k0; k; z0]))) * TM b2 q (nones (length q)) z0 z 0 0); [|ring].
    do 2 f_equal. rewrite sum_conj, sum_mul_l. apply sum_ext. intros k0 Hk0.
    rewrite !get_tconj, get_tscale; [|exact A2|rewrite A1; apply in_range_3; assumption]. rewrite !kconj_mul. ring. }
  assert (Hch : exists t : nat -> tensor, forall i, (i < length bras)%nat -> TERM i = Ok (t i) /\ wf (t i) /\ dims (t i) = [l; d1; d2; c] /\
    sum l (fun a => sum d1 (fun k => sum d2 (fun j => sum c (fun b =>
      get (t i) [a; k; j; b] * sum m (fun k0 => get A [a; k; k0] * get B [k0; j; b]))))) =
      kconj (nth i ws 0) * inner ds (amp (nth i bras [])) (amp (p ++ A :: B :: q))).
  { exists (fun i => match TERM i with Ok t => t | Abort => empty end).
    intros i Hi. destruct (Hterm i Hi) as (t & E & H). rewrite E. split; [reflexivity|exact H]. }
  destruct Hch as (t & Ht).
  destruct (add_terms_value (length bras) TERM t [l; d1; d2; c]) as (v & Hv & Hwv & Hdv & Hgv).
  - apply (bras_pos ws bras ds Hg).
  - cbn. nia.
  - intros i Hi. destruct (Ht i Hi) as (E1 & E2 & E3 & _). auto.
  - exists v. rewrite Hnb. split; [exact Hv|]. split; [exact Hwv|]. split; [exact Hdv|].
    unfold overlap. rewrite Hpd.
    transitivity (sum (length bras) (fun i => sum l (fun a => sum d1 (fun k => sum d2 (fun j => sum c (fun b =>
      get (t i) [a; k; j; b] * sum m (fun k0 => get A [a; k; k0] * get B [k0; j; b]))))))).
    + symmetry. rewrite sum_swap. apply sum_ext. intros a Ha. rewrite sum_swap. apply sum_ext. intros k Hk. rewrite sum_swap. apply sum_ext. intros j Hj.
      rewrite sum_swap. apply sum_ext. intros b Hb. rewrite Hgv by (apply in_range_4; assumption). rewrite sum_mul_r. reflexivity.
    + apply sum_ext. intros i Hi. destruct (Ht i Hi) as (_ & _ & _ & E). exact E.
Qed.

Lemma two_site_right f p C q A B : linv ws bras ds f p (C :: q) -> linked 1 (p ++ A :: B :: q) 1 -> pdims (p ++ A :: B :: q) = ds ->
  exists v, two_site_vector f 1 = Ok v /\ wf v /\ dims v = [dim A 0; dim A 1; dim B 1; dim B 2] /\
    sum (dim A 0) (fun a => sum (dim A 1) (fun i => sum (dim B 1) (fun j => sum (dim B 2) (fun b =>
      get v [a; i; j; b] * sum (dim A 2) (fun m => get A [a; i; m] * get B [m; j; b]))))) =
    overlap ws bras (p ++ A :: B :: q).
Proof.
  intros (H0 & Hh & Hlen & HL & HR) Hlk Hpd. cbn [length] in Hlen.
  destruct (two_site_value f (length p) p q A B H0 eq_refl ltac:(lia)) as (v & Hv & H); try assumption.
  - intros i Hi. pose proof (HL i (length p) Hi (le_n _)) as H. rewrite firstn_all in H. exact H.
  - intros i Hi. pose proof (HR i (length p + 2)%nat Hi ltac:(lia) ltac:(lia)) as H.
    replace (length p + 2 - S (length p))%nat with 1%nat in H by lia. exact H.
  - exists v. split; [|exact H]. unfold two_site_vector. rewrite (size_ok ws bras ds Hg f H0), Hh.
    destruct (Nat.ltb_spec (length p + 1) (length ds)); [exact Hv|lia].
Qed.

Lemma two_site_left f p C q A B : linv ws bras ds f (p ++ [C]) q -> linked 1 (p ++ A :: B :: q) 1 -> pdims (p ++ A :: B :: q) = ds ->
  exists v, two_site_vector f (-1) = Ok v /\ wf v /\ dims v = [dim A 0; dim A 1; dim B 1; dim B 2] /\
    sum (dim A 0) (fun a => sum (dim A 1) (fun i => sum (dim B 1) (fun j => sum (dim B 2) (fun b =>
      get v [a; i; j; b] * sum (dim A 2) (fun m => get A [a; i; m] * get B [m; j; b]))))) =
    overlap ws bras (p ++ A :: B :: q).
Proof.
  intros (H0 & Hh & Hlen & HL & HR) Hlk Hpd. rewrite app_length in Hlen, Hh. cbn [length] in Hlen, Hh.
  destruct (two_site_value f (length p) p q A B H0 eq_refl ltac:(lia)) as (v & Hv & H); try assumption.
  - intros i Hi. pose proof (HL i (length p) Hi ltac:(rewrite app_length; lia)) as H. rewrite firstn_app, Nat.sub_diag in H.
    change (firstn 0 [C]) with (@nil tensor) in H. rewrite app_nil_r, firstn_all in H. exact H.
  - intros i Hi. pose proof (HR i (length p + 2)%nat Hi) as H. rewrite app_length in H. cbn [length] in H.
    specialize (H ltac:(lia) ltac:(lia)).
    replace (length p + 2 - S (length p + 1))%nat with 0%nat in H by lia. exact H.
  - exists v. split; [|exact H]. unfold two_site_vector. rewrite Hh. replace (0 <? -1)%Z with false by reflexivity.
    destruct (Nat.ltb_spec 0 (length p + 1)); [|lia]. replace (length p + 1 - 1)%nat with (length p) by lia. exact Hv.
Qed.

(** ** norm2() *)
Lemma lf_norm_value f : lf_weight f = ws -> lf_bra f = bras ->
  lf_norm2_v f = Ok (sum (length bras) (fun i => sum (length bras) (fun j =>
    kconj (nth i ws 0) * nth j ws 0 * inner ds (amp (nth i bras [])) (amp (nth j bras []))))).
Proof.
  intros Hw Hb. unfold lf_norm2_v, lf_nbras. rewrite Hb.
  set (SS := fun i j => kconj (nth i ws 0) * nth j ws 0 * inner ds (amp (nth i bras [])) (amp (nth j bras []))).
  set (BODY := fun (i : nat) (v : result K) (j : nat) =>
      bind v (fun v => bind (lf_weight_at f i) (fun wi => bind (lf_weight_at f j) (fun wj =>
        bind (scprod (nth i bras []) (nth j bras []) 1) (fun s =>
          let x := (kconj wi * wj * s)%K in
          let v := (v + x)%K in
          Ok (if Nat.eqb i j then v else (v + kconj x)%K)))))).
  assert (Hb1 : forall i j v, (i < length bras)%nat -> (j < length bras)%nat ->
    BODY i (Ok v) j = Ok (if Nat.eqb i j then v + SS i j else v + SS i j + kconj (SS i j))).
  { intros i j v Hi Hj. unfold BODY. cbn [bind]. unfold lf_weight_at. rewrite Hw.
    destruct Hg as (_ & Hl & Hall). rewrite !(nth_error_nth' ws 0) by lia. cbn [bind].
    destruct (bra_ok ws bras ds Hg i Hi) as (I1 & I2 & I3). destruct (bra_ok ws bras ds Hg j Hj) as (J1 & J2 & J3).
    unfold bra in *. rewrite scprod_correct.
    - cbn [bind]. rewrite I3. destruct (Nat.eqb i j); reflexivity.
    - split; [exact I2|]. exists 1%nat. split; [lia|exact I1].
    - split; [exact J2|]. exists 1%nat. split; [lia|exact J1].
    - congruence. }
  assert (Hsym : forall i j, kconj (SS i j) = SS j i).
  { intros i j. unfold SS. rewrite !kconj_mul, kconj_inv, inner_conj. ring. }
  assert (Hin : forall i n v, (i < length bras)%nat -> (n <= i)%nat ->
     fold_left (BODY i) (seq 0 n) (Ok v) = Ok (v + sum n (fun j => SS i j + SS j i))).
  { intros i n v Hi. induction n as [|n IH]; intros Hn; [cbn; f_equal; ring|].
    rewrite seq_S, fold_left_app, IH by lia. cbn [fold_left Nat.add]. rewrite Hb1 by lia. rewrite Hsym.
    destruct (Nat.eqb_spec i n); [lia|]. f_equal. cbn [sum]. ring. }
  assert (Hout : forall n, (n <= length bras)%nat ->
     fold_left (fun v i => fold_left (BODY i) (seq 0 (i + 1)) v) (seq 0 n) (Ok 0) = Ok (sum n (fun i => sum n (fun j => SS i j)))).
  { induction n as [|n IH]; intros Hn; [reflexivity|].
    rewrite seq_S, fold_left_app, IH by lia. cbn [fold_left Nat.add].
    rewrite Nat.add_1_r, seq_S, fold_left_app, Hin by lia. cbn [fold_left Nat.add]. rewrite Hb1 by lia. rewrite Nat.eqb_refl. f_equal.
    cbn [sum]. rewrite !sum_add. change (sum n (fun j => SS n j)) with (sum n (SS n)). ring. }
  apply Hout. lia.
Qed.
End Inv.
End Facts.
