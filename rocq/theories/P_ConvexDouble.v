(** Property C130 in double precision: the computed values of a put are convex up to
    rounding. *)
From Coq Require Import String List ZArith Bool Lia Reals Lra Psatz.
From Flocq Require Import Core BinarySingleNaN.
From Verif Require Import M_Num M_Outcome M_Numeric M_Stock M_Market M_Payoff M_Option M_Fdm
  S_Market S_Numeric S_Double S_Fdm S_FdmDouble S_ExplicitDouble L_Fdm L_FdmDouble L_Convex P_FdmDouble P_ExplicitDouble.
Import ListNotations.
Local Open Scope R_scope.

Lemma put_grid_convex : forall sigma r q dt h K last, 0 < dt -> 0 <= h -> 0 <= K <= INR last * h -> (1 <= last)%nat -> 0 <= q <= r -> steady sigma r q dt last ->
  forall i j, (1 <= j < last)%nat -> 0 <= bend (put_grid sigma r q dt h K last i) j.
Proof.
  intros sigma r q dt h K last DT HH KX L1 QR ST. set (G := put_grid sigma r q dt h K last).
  set (ext := fun (u : nat -> R) j => if Nat.leb j last then u j else 2 * u last - u (last - 1)%nat).
  assert (EX : forall u j, (j <= last)%nat -> ext u j = u j) by (intros u j JJ; unfold ext; destruct (Nat.leb_spec j last); [easy|lia]).
  assert (BE : forall u j, (1 <= j < last)%nat -> bend (ext u) j = bend u j) by (intros u j JJ; unfold bend; rewrite !EX by lia; reflexivity).
  assert (POS : forall i j, (j <= last)%nat -> 0 <= G i j) by (intros i j JJ; apply put_grid_bounds; auto; lra).
  assert (G0 : forall i, G i 0%nat = K).
  { intros [|i]; unfold G; cbn [put_grid Nat.eqb]; [|reflexivity]. cbn [INR]. rewrite Rmult_0_l, Rminus_0_r. apply Rmax_left. lra. }
  assert (GL : forall i, G i last = 0).
  { intros [|i]; unfold G; cbn [put_grid].
    - apply Rmax_right. lra.
    - destruct (Nat.eqb_spec last 0); [lia|]. now rewrite Nat.eqb_refl. }
  induction i as [|i IH]; intros j JJ.
  - unfold bend, G. cbn [put_grid]. rewrite plus_INR, minus_INR by lia. change (INR 1) with 1.
    replace ((INR j + 1) * h) with (INR j * h + h) by ring. replace ((INR j - 1) * h) with (INR j * h - h) by ring. set (x := INR j * h).
    unfold Rmax; destruct (Rle_dec _ _), (Rle_dec _ _), (Rle_dec _ _); lra.
  - rewrite <- BE by easy. destruct ST as (R0 & PE & CFL) eqn:STE. clear STE.
    revert j JJ. apply (explicit_bend sigma r q dt DT PE last (ext (G i))); [lia| |intros; rewrite BE by easy; now apply IH| | | |].
    + unfold bend. rewrite (EX _ last), (EX _ (last - 1)%nat) by lia. unfold ext. destruct (Nat.leb_spec (last + 1) last); [lia|]. ring.
    + intros j JJ. eapply Rle_trans; [|exact CFL]. unfold pu, pd. apply Rle_trans with (dt * (sigma * sigma * (INR j * INR j) + q)); [right; field|]. apply Rmult_le_compat_l; [lra|].
      pose proof (pos_INR j). assert (INR j <= INR (last - 1)) by (apply le_INR; lia). assert (INR j * INR j <= INR (last - 1) * INR (last - 1)) by (apply Rmult_le_compat; lra).
      assert (sigma * sigma * (INR j * INR j) <= sigma * sigma * (INR (last - 1) * INR (last - 1))) by (apply Rmult_le_compat_l; [nra|easy]). lra.
    + intros j JJ. unfold lap. rewrite BE, !EX by lia. unfold bend. unfold G at 1. cbn [put_grid]. destruct (Nat.eqb_spec j 0); [lia|]. destruct (Nat.eqb_spec j last); [lia|].
      change (put_grid sigma r q dt h K last i) with (G i). unfold weight_down, weight_stay, weight_up. field.
    + unfold lap. rewrite !(EX _ 0%nat) by lia. rewrite !G0. cbn [INR]. assert (0 <= dt * (r * K)) by (apply Rmult_le_pos; [lra|]; apply Rmult_le_pos; lra).
      match goal with |- ?l <= _ => replace l with (K - dt * (r * K)) by field end. lra.
    + unfold lap, bend. rewrite !(EX _ last), (EX _ (last - 1)%nat) by lia. rewrite !GL. unfold ext. destruct (Nat.leb_spec (last + 1) last); [lia|]. rewrite GL.
      pose proof (POS i (last - 1)%nat ltac:(lia)) as P. pose proof (pos_INR last) as PI.
      assert (0 <= dt * ((r - q) * INR last * G i (last - 1)%nat)).
      { apply Rmult_le_pos; [lra|]. apply Rmult_le_pos; [|exact P]. apply Rmult_le_pos; lra. }
      match goal with |- ?l <= _ => replace l with (- (dt * ((r - q) * INR last * G i (last - 1)%nat))) by field end. lra.
Qed.

Section Run.
Variable fexp flog : b64 -> b64.
Local Notation num := (B64 fexp flog).

Theorem C130_double : forall lu xDom J tDom N K o cf s w d,
  vanilla64 fexp flog KExplicit xDom J tDom N Put K o cf s -> read (optTicker o) w = Ok d ->
  let sigma := getSigma d in let r := getR w in let q := coupon64 d in
  (2 <= N <= 2 ^ 25)%Z -> moderate64 xDom -> moderate64 tDom -> moderate64 sigma -> moderate64 K ->
  finite r -> finite q -> moderate_or_zero (val r) -> moderate_or_zero (val r - val q) -> 0 <= val q <= val r -> val K <= val xDom ->
  let dt := val tDom / (IZR N - 1) in let last := (Z.to_nat J - 1)%nat in
  steady (val sigma) (val r) (val q) dt last ->
  exists m v s', (m = Z.to_nat (N - 1) \/ m = Z.to_nat N) /\
    (forall fuel, (m <= fuel)%nat -> @solve b64 num lu cf w fuel s = Some (Ok v, s')) /\
    forall j, (1 <= j < last)%nat ->
      2 * val (at64 v j) <= val (at64 v (j - 1)) + val (at64 v (j + 1)) + 4 * ((4 + 64 * INR m) * bpow radix2 (-53) * val K).
Proof.
  intros lu xDom J tDom N K o cf s w d V RD sigma r q HN MXD MTD MS MK FR FQ MR MC QR KX dt last ST.
  pose proof V as (HJ & _).
  destruct (C129_put fexp flog lu xDom J tDom N K o cf s w d V RD HN MXD MTD MS MK FR FQ MR MC ST) as (m & v & s' & MM & SO & ERR).
  exists m, v, s'. split; [exact MM|]. split; [exact SO|]. intros j JJ. fold sigma r q last dt in ERR.
  destruct MXD as [_ MXD]. destruct MTD as [_ MTD]. destruct MK as [_ [K1 _]]. pose proof (bpow_gt_0 radix2 (-50)).
  assert (HP := h_pos xDom J ltac:(lia) MXD). assert (TP := tau_pos tDom J N HN MTD). fold dt in TP.
  assert (PJ : 0 < IZR J - 1) by (assert (4 <= IZR J) by (apply IZR_le; lia); lra).
  assert (LJ : INR last * (val xDom / (IZR J - 1)) = val xDom).
  { unfold last. rewrite minus_INR by lia. rewrite INR_IZR_INZ, Z2Nat.id by lia. change (INR 1) with 1. field. lra. }
  pose proof (put_grid_convex (val sigma) (val r) (val q) dt (val xDom / (IZR J - 1)) (val K) last TP ltac:(lra) ltac:(rewrite LJ; lra) ltac:(unfold last; lia) QR ST m j JJ) as C.
  unfold bend in C.
  destruct (ERR (j - 1)%nat ltac:(lia)) as [_ E1]. destruct (ERR j ltac:(lia)) as [_ E2]. destruct (ERR (j + 1)%nat ltac:(lia)) as [_ E3].
  apply Rabs_le_inv in E1, E2, E3. lra.
Qed.
End Run.
Print Assumptions C130_double.

(** The put of [C129_ex]: strike 3, nodes 0, 2, 4, 6, 8, ten steps. *)
Example C130_double_ex : forall lu, exists cf s m v s',
  made129 = Ok (cf, s) /\ (forall fuel, (m <= fuel)%nat -> @solve b64 (B64 one one) lu cf w129 fuel s = Some (Ok v, s')) /\
  forall j, (1 <= j < 4)%nat -> 2 * val (at64 v j) <= val (at64 v (j - 1)) + val (at64 v (j + 1)) + 1/100000000000.
Proof.
  intros lu. destruct (C129_ex lu) as (cf & s & E & _). exists cf, s.
  assert (V : vanilla64 one one KExplicit (b64_ofZ 8) 5 (b64_ofZ 1) 11 Put (b64_ofZ 3) (o64 Put 3) cf s).
  { split; [unfold ULONG_MOD; lia|]. split; [unfold INT_MAX; lia|]. split; [reflexivity|]. exists None, (fun _ => b64_ofZ 0), w129. exact E. }
  assert (Z : forall k, (1 <= k <= 8)%Z -> moderate64 (b64_ofZ k) /\ val (b64_ofZ k) = IZR k).
  { intros k KK. destruct (L_Near.ofZ_fmt k) as [F VK]; [lia|]. split; [|exact VK]. split; [exact F|]. rewrite VK. unfold moderate.
    assert (1 <= IZR k <= 8) by (split; apply IZR_le; lia). pose proof (bpow_le radix2 (-50) 0 ltac:(lia)) as L1. pose proof (bpow_le radix2 3 50 ltac:(lia)) as L2.
    change (bpow radix2 0) with 1 in L1. change (bpow radix2 3) with 8 in L2. lra. }
  destruct (Z 8%Z ltac:(lia)) as [M8 V8]. destruct (Z 1%Z ltac:(lia)) as [M1 V1]. destruct (Z 3%Z ltac:(lia)) as [M3 V3].
  assert (VH : val half64 = 1/2) by (vm_compute; lra). assert (VR : val (b64_div (b64_ofZ 1) (b64_ofZ 16)) = 1/16) by (vm_compute; lra).
  assert (MB : forall x, / 16 <= x <= 1 -> moderate x).
  { intros x X. unfold moderate. pose proof (bpow_le radix2 (-50) (-4) ltac:(lia)) as L1. pose proof (bpow_le radix2 0 50 ltac:(lia)) as L2.
    change (bpow radix2 0) with 1 in L2. change (bpow radix2 (-4)) with (/ 16) in L1. lra. }
  pose proof (C130_double one one lu _ _ _ _ _ _ cf s w129 (mkStock (b64_ofZ 4) half64 None) V eq_refl) as C. cbn zeta in C.
  change (getSigma (mkStock (b64_ofZ 4) half64 None)) with half64 in C. change (getR w129) with (b64_div (b64_ofZ 1) (b64_ofZ 16)) in C.
  change (coupon64 (mkStock (b64_ofZ 4) half64 None)) with (b64_ofZ 0) in C.
  assert (Z0 : val (b64_ofZ 0) = 0) by reflexivity. rewrite V8, V1, V3, VH, VR, Z0 in C.
  assert (MH : moderate64 half64) by (split; [reflexivity|rewrite VH; apply MB; lra]).
  assert (MQ : moderate_or_zero (1/16)) by (right; rewrite Rabs_pos_eq by lra; apply MB; lra).
  assert (MQ' : moderate_or_zero (1/16 - 0)) by (rewrite Rminus_0_r; exact MQ).
  assert (PN : (2 <= 11 <= 2 ^ 25)%Z) by lia. specialize (C PN M8 M1 MH M3 eq_refl eq_refl MQ MQ' ltac:(lra) ltac:(lra)).
  change (Z.to_nat 5 - 1)%nat with 4%nat in C. change (Z.to_nat (11 - 1)) with 10%nat in C. change (Z.to_nat 11) with 11%nat in C.
  destruct C as (m & v & s' & MM & SO & B).
  { split; [lra|]. rewrite Rminus_0_r, Rabs_pos_eq by lra. split; [lra|]. cbn [INR Nat.sub]. lra. }
  exists m, v, s'. split; [exact E|]. split; [exact SO|]. intros j JJ. specialize (B j JJ).
  assert (INR m <= 11) by (destruct MM as [-> | ->]; cbn [INR]; lra).
  change (bpow radix2 (-53)) with (/ 9007199254740992) in B. lra.
Qed.
