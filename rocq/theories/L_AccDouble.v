(** The quantile function of the code in binary64: distance to its exact counterpart. *)
From Coq Require Import List ZArith Reals Lra Lia Bool Psatz.
From Flocq Require Import Core BinarySingleNaN.
From Coquelicot Require Import Coquelicot.
From Verif Require Import M_Num M_Outcome M_Random S_Prob S_Normal S_Double S_Libm L_ZPoly L_Normal L_Mixture L_InvCdf L_Accuracy L_AccTail L_B64 L_Order L_McRound L_Near.
Import ListNotations.
Local Open Scope R_scope.

Definition lit64 (m e : Z) : b64 := b64_div (b64_ofZ m) (b64_ofZ (10 ^ e)).
(** The two branches, on doubles. *)
Definition cen64 (x : b64) : b64 :=
  let r := b64_mul x x in
  b64_div
    (b64_mul x (b64_add (b64_mul (b64_add (b64_mul (b64_add (b64_mul (lit64 (-2544106049637) 11) r) (lit64 4139119773534 11)) r) (lit64 (-1861500062529) 11)) r) (lit64 250662823884 11)))
    (b64_add (b64_mul (b64_add (b64_mul (b64_add (b64_mul (b64_add (b64_mul (lit64 313082909833 11) r) (lit64 (-2106224101826) 11)) r) (lit64 2308336743743 11)) r) (lit64 (-847351093090) 11)) r) (b64_ofZ 1)).
Definition tl64 (r : b64) : b64 :=
  b64_add (lit64 3374754822726147 16) (b64_mul r (b64_add (lit64 9761690190917186 16) (b64_mul r
  (b64_add (lit64 1607979714918209 16) (b64_mul r (b64_add (lit64 276438810333863 16) (b64_mul r
  (b64_add (lit64 38405729373609 16) (b64_mul r (b64_add (lit64 3951896511919 16) (b64_mul r
  (b64_add (lit64 321767881768 16) (b64_mul r (b64_add (lit64 2888167364 16) (b64_mul r
  (lit64 3960315187 16)))))))))))))))).
Definition abs64 (x : b64) : b64 := if b64_ltb x (b64_ofZ 0) then b64_opp x else x.
Definition inv64 (flog : b64 -> b64) (u : b64) : outcome b64 :=
  if b64_leb u (b64_ofZ 0) || b64_leb (b64_ofZ 1) u then Throw InvalidArgument
  else
    let sup := b64_ltb (lit64 5 1) u in
    let up := if sup then b64_sub (b64_ofZ 1) u else u in
    let x := b64_sub up (lit64 5 1) in
    if b64_ltb (abs64 x) (lit64 42 2) then Ok (if sup then b64_opp (cen64 x) else cen64 x)
    else let t := tl64 (flog (b64_opp (flog up))) in Ok (if sup then t else b64_opp t).
Lemma inv64_ok : forall fexp flog u, @snd_inv_cdf b64 (B64 fexp flog) u = inv64 flog u.
Proof. reflexivity. Qed.

Lemma near_lit : forall m e D K, IZR (10 ^ e) = D -> 1 <= D <= 10000000000000000 -> Rabs (IZR m) <= K * D -> K <= 100 ->
  near (lit64 m e) (IZR m / D) K (5 * K * u0 + 100 * e0).
Proof.
  intros m e D K HD D1 HM K1. unfold lit64. pose proof (Rabs_pos (IZR m)) as M0.
  assert (K0 : 0 <= K) by (apply Rnot_lt_le; intros N; nra).
  assert (KD : K * D <= 1000000000000000000) by nra.
  pose proof (near_ofZ m (K * D) HM ltac:(lra)) as A.
  pose proof (near_ofZ (10 ^ e) D ltac:(rewrite HD, Rabs_pos_eq; lra) ltac:(lra)) as B. rewrite HD in B.
  refine (near_div _ _ _ _ _ _ _ _ D K (3 * K * u0 + 10 * e0) _ A B _ _ _ _ _ _).
  - rewrite Rabs_pos_eq; lra.
  - unfold u0, e0. lra.
  - lra.
  - set (c := 3 * K * u0 + 10 * e0).
    assert (C : 2 * K * u0 + e0 * (1 + K) <= c * (1 - u0 - e0)) by (unfold c, u0, e0; lra).
    assert (C0 : 0 <= c * e0) by (unfold c, u0, e0; lra). assert (C1 : 0 <= e0 * (1 + K)) by (unfold e0; lra).
    replace ((K * D * u0 + e0) * D + K * D * (D * u0 + e0)) with (D * D * (2 * K * u0) + D * (e0 * (1 + K))) by ring.
    replace (c * ((D - (D * u0 + e0)) * D)) with (D * D * (c * (1 - u0)) - D * (c * e0)) by ring.
    assert (DD : D <= D * D) by nra. assert (D * (e0 * (1 + K)) <= D * D * (e0 * (1 + K))) by (apply Rmult_le_compat_r; easy).
    assert (D * (c * e0) <= D * D * (c * e0)) by (apply Rmult_le_compat_r; easy).
    assert (D * D * (2 * K * u0 + e0 * (1 + K)) <= D * D * (c * (1 - u0 - e0))) by (apply Rmult_le_compat_l; nra). lra.
  - unfold u0, e0. lra.
  - unfold u0, e0. lra.
Qed.

Lemma fB_low : forall y, 0 <= y <= 42/100 -> 1/10 <= fB (y * y).
Proof.
  intros y Y. assert (H : 0 <= zev (zsub L_Accuracy.dI [10000000000%Z]) y) .
  { assert (C : zcheck 12 (zsub L_Accuracy.dI [10000000000%Z]) 0 42 100 = true) by (vm_compute; reflexivity).
    exact (zcheck_ok _ _ _ _ _ C _ (L_Accuracy.at_range _ Y)). }
  rewrite zev_sub in H. unfold L_Accuracy.dI in H. cbn [zev] in H. unfold fB. lra.
Qed.

Ltac num := unfold u0, e0; lra.
Lemma cen_near : forall x, finite x -> Rabs (val x) <= 42/100 -> finite (cen64 x) /\ Rabs (val (cen64 x) - cen (val x)) <= 2/1000000000000.
Proof.
  intros x F XB. pose proof (near_self x _ F XB) as HX.
  assert (HB : 1/10 <= Rabs (fB (val x * val x))).
  { replace (val x * val x) with (Rabs (val x) * Rabs (val x)) by (rewrite <- Rabs_mult; apply Rabs_pos_eq; nra).
    pose proof (fB_low (Rabs (val x)) (conj (Rabs_pos _) XB)). rewrite Rabs_pos_eq; lra. }
  pose proof (near_mul _ _ _ _ _ _ _ _ (177/1000) (0) (213/10000000000000000000) HX HX ltac:(num) ltac:(num) ltac:(num) ltac:(num)) as H1.
  pose proof (near_lit (-2544106049637) 11 100000000000 (255/10) eq_refl ltac:(num) ltac:(apply Rabs_le; lra) ltac:(num)) as H2.
  pose proof (near_mul _ _ _ _ _ _ _ _ (452/100) (326/100000000000000000) (381/100000000000000000) H2 H1 ltac:(num) ltac:(num) ltac:(num) ltac:(num)) as H3.
  pose proof (near_lit (4139119773534) 11 100000000000 (414/10) eq_refl ltac:(num) ltac:(apply Rabs_le; lra) ltac:(num)) as H4.
  pose proof (near_add _ _ _ _ _ _ _ _ (46) (342/10000000000000000) H3 H4 ltac:(num) ltac:(num) ltac:(num)) as H5. clear H3 H4.
  pose proof (near_mul _ _ _ _ _ _ _ _ (815/100) (704/100000000000000000) (802/100000000000000000) H5 H1 ltac:(num) ltac:(num) ltac:(num) ltac:(num)) as H6.
  pose proof (near_lit (-1861500062529) 11 100000000000 (187/10) eq_refl ltac:(num) ltac:(apply Rabs_le; lra) ltac:(num)) as H7.
  pose proof (near_add _ _ _ _ _ _ _ _ (269/10) (225/10000000000000000) H6 H7 ltac:(num) ltac:(num) ltac:(num)) as H8. clear H6 H7.
  pose proof (near_mul _ _ _ _ _ _ _ _ (477/100) (456/100000000000000000) (514/100000000000000000) H8 H1 ltac:(num) ltac:(num) ltac:(num) ltac:(num)) as H9.
  pose proof (near_lit (250662823884) 11 100000000000 (251/100) eq_refl ltac:(num) ltac:(apply Rabs_le; lra) ltac:(num)) as H10.
  pose proof (near_add _ _ _ _ _ _ _ _ (728/100) (752/100000000000000000) H9 H10 ltac:(num) ltac:(num) ltac:(num)) as H11. clear H9 H10.
  pose proof (near_mul _ _ _ _ _ _ _ _ (306/100) (316/100000000000000000) (353/100000000000000000) HX H11 ltac:(num) ltac:(num) ltac:(num) ltac:(num)) as H12.
  pose proof (near_lit (313082909833) 11 100000000000 (314/100) eq_refl ltac:(num) ltac:(apply Rabs_le; lra) ltac:(num)) as H13.
  pose proof (near_mul _ _ _ _ _ _ _ _ (556/1000) (401/1000000000000000000) (468/1000000000000000000) H13 H1 ltac:(num) ltac:(num) ltac:(num) ltac:(num)) as H14.
  pose proof (near_lit (-2106224101826) 11 100000000000 (211/10) eq_refl ltac:(num) ltac:(apply Rabs_le; lra) ltac:(num)) as H15.
  pose proof (near_add _ _ _ _ _ _ _ _ (217/10) (158/10000000000000000) H14 H15 ltac:(num) ltac:(num) ltac:(num)) as H16. clear H14 H15.
  pose proof (near_mul _ _ _ _ _ _ _ _ (385/100) (326/100000000000000000) (373/100000000000000000) H16 H1 ltac:(num) ltac:(num) ltac:(num) ltac:(num)) as H17.
  pose proof (near_lit (2308336743743) 11 100000000000 (231/10) eq_refl ltac:(num) ltac:(apply Rabs_le; lra) ltac:(num)) as H18.
  pose proof (near_add _ _ _ _ _ _ _ _ (27) (209/10000000000000000) H17 H18 ltac:(num) ltac:(num) ltac:(num)) as H19. clear H17 H18.
  pose proof (near_mul _ _ _ _ _ _ _ _ (478/100) (428/100000000000000000) (486/100000000000000000) H19 H1 ltac:(num) ltac:(num) ltac:(num) ltac:(num)) as H20.
  pose proof (near_lit (-847351093090) 11 100000000000 (848/100) eq_refl ltac:(num) ltac:(apply Rabs_le; lra) ltac:(num)) as H21.
  pose proof (near_add _ _ _ _ _ _ _ _ (133/10) (116/10000000000000000) H20 H21 ltac:(num) ltac:(num) ltac:(num)) as H22. clear H20 H21.
  pose proof (near_ofZ 1 1 ltac:(apply Rabs_le; lra) ltac:(num)) as H23.
  pose proof (near_mul _ _ _ _ _ _ _ _ (236/100) (234/100000000000000000) (263/100000000000000000) H22 H1 ltac:(num) ltac:(num) ltac:(num) ltac:(num)) as H24.
  pose proof (near_add _ _ _ _ _ _ _ _ (336/100) (316/100000000000000000) H24 H23 ltac:(num) ltac:(num) ltac:(num)) as H25. clear H24 H23.
  pose proof (near_div _ _ _ _ _ _ _ _ (1/10) (306/10) (101/100000000000000) (102/100000000000000) H12 H25 HB ltac:(num) ltac:(num) ltac:(num) ltac:(num) ltac:(num)) as HQ.
  destruct HQ as (FQ & _ & EQ). split; [exact FQ|]. eapply Rle_trans; [exact EQ|]. lra.
Qed.
Lemma tl_near : forall rd r, near rd r 9 (3/100000000000000) -> finite (tl64 rd) /\ Rabs (val (tl64 rd) - tl r) <= 3/1000000000000.
Proof.
  intros rd r HX.
  pose proof (near_lit (3960315187) 16 10000000000000000 (397/1000000000) eq_refl ltac:(num) ltac:(apply Rabs_le; lra) ltac:(num)) as H1.
  pose proof (near_lit (2888167364) 16 10000000000000000 (289/1000000000) eq_refl ltac:(num) ltac:(apply Rabs_le; lra) ltac:(num)) as H2.
  pose proof (near_mul _ _ _ _ _ _ _ _ (358/100000000) (141/10000000000000000000000) (146/10000000000000000000000) HX H1 ltac:(num) ltac:(num) ltac:(num) ltac:(num)) as H3.
  pose proof (near_add _ _ _ _ _ _ _ _ (387/100000000) (153/10000000000000000000000) H2 H3 ltac:(num) ltac:(num) ltac:(num)) as H4. clear H2 H3.
  pose proof (near_lit (321767881768) 16 10000000000000000 (322/10000000) eq_refl ltac:(num) ltac:(apply Rabs_le; lra) ltac:(num)) as H5.
  pose proof (near_mul _ _ _ _ _ _ _ _ (349/10000000) (254/1000000000000000000000) (259/1000000000000000000000) HX H4 ltac:(num) ltac:(num) ltac:(num) ltac:(num)) as H6.
  pose proof (near_add _ _ _ _ _ _ _ _ (671/10000000) (287/1000000000000000000000) H5 H6 ltac:(num) ltac:(num) ltac:(num)) as H7. clear H5 H6.
  pose proof (near_lit (3951896511919) 16 10000000000000000 (396/1000000) eq_refl ltac:(num) ltac:(apply Rabs_le; lra) ltac:(num)) as H8.
  pose proof (near_mul _ _ _ _ _ _ _ _ (604/1000000) (46/10000000000000000000) (468/100000000000000000000) HX H7 ltac:(num) ltac:(num) ltac:(num) ltac:(num)) as H9.
  pose proof (near_add _ _ _ _ _ _ _ _ (1/1000) (504/100000000000000000000) H8 H9 ltac:(num) ltac:(num) ltac:(num)) as H10. clear H8 H9.
  pose proof (near_lit (38405729373609) 16 10000000000000000 (385/100000) eq_refl ltac:(num) ltac:(apply Rabs_le; lra) ltac:(num)) as H11.
  pose proof (near_mul _ _ _ _ _ _ _ _ (9/1000) (754/10000000000000000000) (765/10000000000000000000) HX H10 ltac:(num) ltac:(num) ltac:(num) ltac:(num)) as H12.
  pose proof (near_add _ _ _ _ _ _ _ _ (129/10000) (804/10000000000000000000) H11 H12 ltac:(num) ltac:(num) ltac:(num)) as H13. clear H11 H12.
  pose proof (near_lit (276438810333863) 16 10000000000000000 (277/10000) eq_refl ltac:(num) ltac:(apply Rabs_le; lra) ltac:(num)) as H14.
  pose proof (near_mul _ _ _ _ _ _ _ _ (117/1000) (112/100000000000000000) (114/100000000000000000) HX H13 ltac:(num) ltac:(num) ltac:(num) ltac:(num)) as H15.
  pose proof (near_add _ _ _ _ _ _ _ _ (145/1000) (118/100000000000000000) H14 H15 ltac:(num) ltac:(num) ltac:(num)) as H16. clear H14 H15.
  pose proof (near_lit (1607979714918209) 16 10000000000000000 (161/1000) eq_refl ltac:(num) ltac:(apply Rabs_le; lra) ltac:(num)) as H17.
  pose proof (near_mul _ _ _ _ _ _ _ _ (131/100) (15/1000000000000000) (152/10000000000000000) HX H16 ltac:(num) ltac:(num) ltac:(num) ltac:(num)) as H18.
  pose proof (near_add _ _ _ _ _ _ _ _ (148/100) (155/10000000000000000) H17 H18 ltac:(num) ltac:(num) ltac:(num)) as H19. clear H17 H18.
  pose proof (near_lit (9761690190917186) 16 10000000000000000 (977/1000) eq_refl ltac:(num) ltac:(apply Rabs_le; lra) ltac:(num)) as H20.
  pose proof (near_mul _ _ _ _ _ _ _ _ (134/10) (184/1000000000000000) (186/1000000000000000) HX H19 ltac:(num) ltac:(num) ltac:(num) ltac:(num)) as H21.
  pose proof (near_add _ _ _ _ _ _ _ _ (144/10) (189/1000000000000000) H20 H21 ltac:(num) ltac:(num) ltac:(num)) as H22. clear H20 H21.
  pose proof (near_lit (3374754822726147) 16 10000000000000000 (338/1000) eq_refl ltac:(num) ltac:(apply Rabs_le; lra) ltac:(num)) as H23.
  pose proof (near_mul _ _ _ _ _ _ _ _ (130) (214/100000000000000) (216/100000000000000) HX H22 ltac:(num) ltac:(num) ltac:(num) ltac:(num)) as H24.
  pose proof (near_add _ _ _ _ _ _ _ _ (131) (218/100000000000000) H23 H24 ltac:(num) ltac:(num) ltac:(num)) as H25. clear H23 H24.
  destruct H25 as (FQ & _ & EQ). split; [exact FQ|]. eapply Rle_trans; [exact EQ|]. lra.
Qed.

(** ** Comparing *)
Lemma half_val : finite (lit64 5 1) /\ val (lit64 5 1) = 1/2.
Proof.
  destruct (ofZ_fmt 5 eq_refl) as [F5 V5]. destruct (ofZ_fmt (10 ^ 1) eq_refl) as [FT VT].
  destruct (val_div _ _ F5 FT) as [NN V]. { rewrite VT. change (10 ^ 1)%Z with 10%Z. lra. }
  change (b64_div (b64_ofZ 5) (b64_ofZ (10 ^ 1))) with (lit64 5 1) in V, NN. rewrite V5, VT in V. change (10 ^ 1)%Z with 10%Z in V. replace (5 / 10) with (1/2) in V by lra.
  assert (G : generic_format radix2 (FLT_exp (-1074) 53) (1/2)).
  { apply generic_format_FLT. exists (Float radix2 1 (-1)); [unfold F2R; cbn; lra|reflexivity|cbn; lia]. }
  pose proof big_INF. assert (E : val (lit64 5 1) = 1/2).
  { rewrite V. unfold fl, rnd. rewrite round_generic by (apply valid_rnd_N || exact G). apply clamp_id. lra. }
  split; [apply finite_of_val; [exact NN|rewrite E; lra]|exact E].
Qed.
Lemma lim_val : finite (lit64 42 2) /\ val (lit64 42 2) = rnd (42/100).
Proof.
  destruct (ofZ_fmt 42 eq_refl) as [F5 V5]. destruct (ofZ_fmt (10 ^ 2) eq_refl) as [FT VT].
  destruct (val_div _ _ F5 FT) as [NN V]. { rewrite VT. change (10 ^ 2)%Z with 100%Z. lra. }
  change (b64_div (b64_ofZ 42) (b64_ofZ (10 ^ 2))) with (lit64 42 2) in V, NN. rewrite V5, VT in V. change (10 ^ 2)%Z with 100%Z in V.
  pose proof big_INF. pose proof (rnd_close (42/100) 1 ltac:(apply Rabs_le; lra)) as C. apply Rabs_le_inv in C. unfold u0, e0 in C.
  assert (E : val (lit64 42 2) = rnd (42/100)). { rewrite V. unfold fl. apply clamp_id. lra. }
  split; [apply finite_of_val; [exact NN|rewrite E; lra]|exact E].
Qed.
Lemma zero_fin : finite (b64_ofZ 0) /\ val (b64_ofZ 0) = 0.
Proof. apply (ofZ_fmt 0 eq_refl). Qed.
Lemma one_fin : finite (b64_ofZ 1) /\ val (b64_ofZ 1) = 1.
Proof. apply (ofZ_fmt 1 eq_refl). Qed.

(** The tested number and the branch taken. *)
Lemma shifted : forall up, finite up -> 0 < val up <= 1/2 -> let x := b64_sub up (lit64 5 1) in
  finite x /\ val x <= 0 /\ Rabs (val x - (val up - 1/2)) <= 1/10000000000000000 /\
  b64_ltb (abs64 x) (lit64 42 2) = Rlt_bool (- val x) (rnd (42/100)) /\ val x = rnd (val up - 1/2).
Proof.
  intros up F U x. destruct half_val as [FH VH]. destruct (val_sub _ _ F FH) as [NN V]. fold x in NN, V. rewrite VH in V.
  pose proof big_INF. pose proof (rnd_close (val up - 1/2) (1/2) ltac:(apply Rabs_le; lra)) as C. pose proof C as C'. apply Rabs_le_inv in C'. unfold u0, e0 in *.
  assert (E : val x = rnd (val up - 1/2)). { rewrite V. unfold fl. apply clamp_id. lra. }
  assert (FX : finite x) by (apply finite_of_val; [exact NN|rewrite E; lra]).
  assert (NEG : val x <= 0). { rewrite E. rewrite <- rnd_0. apply rnd_le. lra. }
  split; [exact FX|]. split; [exact NEG|]. split; [rewrite E; apply Rabs_le_inv in C; apply Rabs_le; lra|]. split; [|exact E].
  destruct lim_val as [FL VL]. destruct zero_fin as [F0 V0].
  assert (A : finite (abs64 x) /\ val (abs64 x) = - val x).
  { unfold abs64. rewrite ltb_val by (apply finite_notnan; easy). rewrite V0. destruct (Rlt_bool_spec (val x) 0) as [L|L].
    - split; [now apply finite_opp|apply val_opp].
    - split; [easy|lra]. }
  destruct A as [FA VA]. rewrite ltb_val by (apply finite_notnan; easy). now rewrite VA, VL.
Qed.

(** ** The normal distribution function is smooth *)
Lemma phi_low : forall z, phi z <= 2/5.
Proof.
  intros z. unfold phi. pose proof root_bounds as RB. fold root.
  assert (E : exp (- (z * z) / 2) <= 1).
  { rewrite <- exp_0. destruct (Req_dec (- (z * z) / 2) 0) as [->|N]; [right; reflexivity|left; apply exp_increasing; nra]. }
  apply (Rmult_le_reg_r root); [lra|]. replace (exp (- (z * z) / 2) / root * root) with (exp (- (z * z) / 2)) by (field; lra). lra.
Qed.
Lemma Phi_step : forall a b, a <= b -> Phi b - Phi a <= 2/5 * (b - a).
Proof.
  intros a b AB. enough ((fun t => 2/5 * t - Phi t) a <= (fun t => 2/5 * t - Phi t) b) by (cbn beta in *; lra).
  apply (grows (fun t => 2/5 * t - Phi t) (fun t => 2/5 * 1 - phi t) a b); try lra.
  - intros t T. apply (is_derive_minus (fun t => 2/5 * t) Phi); [|apply Phi_derive]. apply is_derive_scal. apply @is_derive_id.
  - intros t T. pose proof (phi_low t). lra.
Qed.
Lemma Phi_mono : forall a b, a <= b -> Phi a <= Phi b.
Proof. intros a b [L| ->]; [left; now apply Phi_incr|right; reflexivity]. Qed.
Lemma Phi_close : forall a b d, Rabs (a - b) <= d -> Rabs (Phi a - Phi b) <= 2/5 * d.
Proof.
  intros a b d D. apply Rabs_le_inv in D. apply Rabs_le. destruct (Rle_dec a b) as [L|L].
  - pose proof (Phi_step a b L). pose proof (Phi_mono a b L). lra.
  - pose proof (Phi_step b a ltac:(lra)). pose proof (Phi_mono b a ltac:(lra)). lra.
Qed.

(** ** The centre *)
Lemma centre64 : forall up, finite up -> 0 < val up <= 1/2 -> let x := b64_sub up (lit64 5 1) in
  b64_ltb (abs64 x) (lit64 42 2) = true -> finite (cen64 x) /\ Rabs (Phi (val (cen64 x)) - val up) <= 49/100000000000.
Proof.
  intros up F U x B. destruct (shifted up F U) as (FX & NEG & C & TB & _). fold x in FX, NEG, C, TB. rewrite TB in B. clear TB.
  destruct (Rlt_bool_spec (- val x) (rnd (42/100))) as [L|L]; [clear B|discriminate B].
  assert (XB : - val x < 42/100).
  { apply Rnot_le_lt. intros N. apply rnd_le in N. rewrite rnd_opp, rnd_fmt in N by easy. lra. }
  destruct (cen_near x FX ltac:(rewrite Rabs_left1; lra)) as [FC EC]. split; [exact FC|].
  pose proof (centre (- val x) ltac:(lra)) as CE. rewrite cen_opp, Phi_opp in CE. apply Phi_close in EC.
  apply Rabs_le_inv in EC. apply Rabs_le_inv in CE. apply Rabs_le_inv in C. apply Rabs_le. lra.
Qed.

(** ** The tail *)
Lemma ln_near : forall a b d, 0 < a -> Rabs (b - a) <= d * a -> d <= 1/4 -> Rabs (ln b - ln a) <= 2 * d.
Proof.
  intros a b d A D D4. assert (Z : Rabs ((b - a) / a) <= d).
  { unfold Rdiv. rewrite Rabs_mult, Rabs_inv, (Rabs_pos_eq a) by lra. apply (Rmult_le_reg_r a); [easy|]. rewrite Rmult_assoc, Rinv_l by lra. lra. }
  set (z := (b - a) / a) in *. assert (E : b = a * (1 + z)) by (unfold z; field; lra).
  pose proof (ln_small z ltac:(lra)) as S. pose proof (Rabs_pos z) as Z0. apply Rabs_le_inv in Z. rewrite E, ln_mult by lra.
  replace (ln a + ln (1 + z) - ln a) with (ln (1 + z)) by ring. apply Rabs_le_inv in S. apply Rabs_le. split; nra.
Qed.
Lemma least : forall u, finite u -> 0 < val u -> - ln (val u) <= 806.
Proof.
  intros u F U. rewrite val_finite in * by easy.
  assert (S : is_finite_strict u = true). { revert F U. destruct u as [s|s| |s m e H]; cbn; try easy. intros _ N. lra. }
  pose proof (abs_B2R_ge_emin 53 1024 u S) as G. rewrite Rabs_pos_eq in G by lra. change (SpecFloat.emin 53 1024) with (-1074)%Z in G.
  apply ln_mono in G; [|apply bpow_gt_0]. rewrite bpow_exp, ln_exp in G. change (IZR radix2) with 2 in G.
  assert (L2 : ln 2 <= 3/4).
  { rewrite <- (ln_exp (3/4)). apply ln_mono; [lra|]. replace (3/4) with (3/32 + 3/32 + (3/32 + 3/32) + (3/32 + 3/32 + (3/32 + 3/32))) by lra.
    rewrite !exp_plus. pose proof (exp_1p (3/32)) as E. set (w := exp (3/32)) in *.
    assert (A1 : 1196/1000 <= w * w) by nra. set (w2 := w * w) in *. assert (A2 : 143/100 <= w2 * w2) by nra. nra. }
  lra.
Qed.
Lemma loglog : forall flog up, accurate_log flog -> finite up -> 0 < val up <= 8/100 + 2/10000000000000000 ->
  near (flog (b64_opp (flog up))) (ln (- ln (Rmin (val up) (8/100)))) 9 (3/100000000000000).
Proof.
  intros flog up AC F U. set (v := val up) in *. set (q := Rmin v (8/100)).
  assert (Q : 0 < q <= v /\ q <= 8/100 /\ v - q <= 2/10000000000000000 /\ (v <> q -> q = 8/100)).
  { unfold q, Rmin. destruct (Rle_dec v (8/100)); repeat split; try lra; intros; lra. }
  destruct Q as ((Q0 & Q1) & Q2 & Q3 & Q4).
  pose proof (least up F (proj1 U)) as LE. fold v in LE.
  assert (L1 : 1 <= - ln v).
  { assert (E1 : exp (- (1)) >= 1/3).
    { rewrite exp_Ropp. pose proof exp_le_3. pose proof (exp_pos 1). apply Rle_ge. apply (Rmult_le_reg_r (exp 1)); [easy|]. rewrite Rinv_l by lra. lra. }
    apply Rnot_lt_le. intros N. assert (NN : - (1) < ln v) by lra. apply exp_increasing in NN. rewrite exp_ln in NN by lra. lra. }
  set (Lv := - ln v) in *. set (Lq := - ln q).
  assert (LQ : Rabs (Lq - Lv) <= 25/10000000000000000 * Lv).
  { assert (H : 0 <= Lq - Lv <= 25/10000000000000000).
    { unfold Lq, Lv. split; [pose proof (ln_mono q v Q0 Q1); lra|].
      destruct (Req_dec v q) as [EQ|N]; [rewrite EQ; lra|]. specialize (Q4 N).
      replace (- ln q - - ln v) with (ln v - ln q) by ring. rewrite <- ln_div by lra.
      assert (W : ln (v / q) <= v / q - 1).
      { rewrite <- (ln_exp (v / q - 1)). apply ln_mono; [apply Rdiv_lt_0_compat; lra|]. pose proof (exp_1p (v / q - 1)). lra. }
      eapply Rle_trans; [exact W|]. rewrite Q4. rewrite Q4 in Q3. lra. }
    apply Rabs_le. lra. }
  destruct (AC up F (proj1 U)) as (F1 & E1). fold v in E1. set (l1 := flog up) in *. replace (ln v) with (- Lv) in E1 by (unfold Lv; ring).
  rewrite Rabs_Ropp, (Rabs_pos_eq Lv) in E1 by lra.
  assert (E2 : Rabs (val (b64_opp l1) - Lv) <= 2/1000000000000000 * Lv).
  { rewrite val_opp. apply Rabs_le_inv in E1. apply Rabs_le. lra. }
  assert (P2 : 0 < val (b64_opp l1)) by (apply Rabs_le_inv in E2; lra).
  destruct (AC (b64_opp l1) (finite_opp _ F1) P2) as (F3 & E3).
  pose proof (ln_near Lv _ _ ltac:(lra) E2 ltac:(lra)) as N2. pose proof (ln_near Lv _ _ ltac:(lra) LQ ltac:(lra)) as N3.
  assert (LL : 0 <= ln Lv <= 88/10).
  { split; [rewrite <- ln_1; apply ln_mono; lra|]. rewrite <- (ln_exp (88/10)). apply ln_mono; [lra|]. eapply Rle_trans; [exact LE|].
    replace (88/10) with (11/10 + 11/10 + (11/10 + 11/10) + (11/10 + 11/10 + (11/10 + 11/10))) by lra. rewrite !exp_plus.
    assert (W : 24/10 <= exp (11/10)).
    { replace (11/10) with (11/20 + 11/20) by lra. rewrite exp_plus. pose proof (exp_1p (11/20)) as B. nra. }
    set (w := exp (11/10)) in *. assert (W2 : 576/100 <= w * w) by nra. set (w2 := w * w) in *. assert (W4 : 33 <= w2 * w2) by nra. nra. }
  apply Rabs_le_inv in N2. apply Rabs_le_inv in N3.
  assert (A3 : Rabs (ln (val (b64_opp l1))) <= 9) by (apply Rabs_le; lra).
  split; [exact F3|]. split; [apply Rabs_le; fold Lq; lra|]. fold Lq. apply Rabs_le_inv in E3. apply Rabs_le. lra.
Qed.
Lemma tail64 : forall flog up, accurate_log flog -> finite up -> 0 < val up <= 8/100 + 2/10000000000000000 ->
  let t := tl64 (flog (b64_opp (flog up))) in
  finite t /\ Rabs (Phi (- val t) - val up) <= kappa * val up + 33/10000000000000.
Proof.
  intros flog up AC F U t. destruct (tl_near _ _ (loglog flog up AC F U)) as (FT & ET). fold t in FT, ET. split; [exact FT|].
  set (q := Rmin (val up) (8/100)) in *.
  assert (Q : 0 < q <= val up /\ q <= 8/100 /\ val up - q <= 2/10000000000000000).
  { unfold q, Rmin. destruct (Rle_dec (val up) (8/100)); repeat split; lra. }
  pose proof (lower_tail q ltac:(lra)) as LT. unfold tiny in LT.
  assert (D : Rabs (- val t - - tl (ln (- ln q))) <= 3/1000000000000).
  { replace (- val t - - tl (ln (- ln q))) with (- (val t - tl (ln (- ln q)))) by ring. now rewrite Rabs_Ropp. }
  apply Phi_close in D. apply Rabs_le_inv in D. apply Rabs_le_inv in LT. unfold kappa in *. apply Rabs_le. lra.
Qed.
Lemma branch_tail : forall up, finite up -> 0 < val up <= 1/2 -> let x := b64_sub up (lit64 5 1) in
  (b64_ltb (abs64 x) (lit64 42 2) = false -> val up <= 8/100 + 2/10000000000000000) /\
  (val up <= 8/100 -> b64_ltb (abs64 x) (lit64 42 2) = false) /\
  (8/100 + 2/10000000000000000 < val up -> b64_ltb (abs64 x) (lit64 42 2) = true).
Proof.
  intros up F U x. destruct (shifted up F U) as (FX & NEG & C & TB & V). fold x in FX, NEG, C, TB, V. rewrite TB.
  assert (W : - val x = rnd (1/2 - val up)). { rewrite V, <- rnd_opp. f_equal. ring. }
  pose proof (rnd_close (42/100) (42/100) ltac:(apply Rabs_le; lra)) as C4. apply Rabs_le_inv in C4.
  pose proof (rnd_close (1/2 - val up) (1/2) ltac:(apply Rabs_le; lra)) as C5. apply Rabs_le_inv in C5. rewrite <- W in C5. unfold u0, e0 in *.
  split; [|split].
  - intros B. destruct (Rlt_bool_spec (- val x) (rnd (42/100))) as [L|L]; [discriminate B|]. lra.
  - intros B. apply Rlt_bool_false. rewrite W. apply rnd_le. lra.
  - intros B. apply Rlt_bool_true. lra.
Qed.
