(** C139: how far the projected correlation function is from the integral it stands for. *)
From Coq Require Import Reals List Arith Lia Lra Psatz.
From Coquelicot Require Import Coquelicot.
From Verif Require Import Model.RBool Model.SimpsonX Model.IntegrateCorr Spec.IntegrateSpec Proofs.Calc Proofs.SimpsonXProofs Proofs.SimpsonXError Proofs.IntegrateProofs Proofs.GridProofs
  Props.IntegrateProps Props.IntegrateProps3 Props.ProjNeglectProps.
Import ListNotations.
Local Open Scope R_scope.

(** ** any grid, any function with a Lipschitz second derivative *)
Lemma budget_gaps : forall K h, 0 <= K -> 0 <= h -> forall x, (3 <= length x)%nat -> incr x -> (forall i, (S i < length x)%nat -> nth (S i) x 0 - nth i x 0 <= h) ->
  budget (fun _ => K) (fun t => 3 / 8 * (K * h ^ 3) * t) x.
Proof.
  intros K h HK Hh x. pattern x. apply list_ind5; clear x; try (intros; simpl in *; lia).
  - intros a b c _ I G. assert (G0 := G 0%nat ltac:(simpl; lia)). assert (G1 := G 1%nat ltac:(simpl; lia)). cbn [nth] in *. apply bg3. exists h. repeat split; auto. lra.
  - intros a b c d _ I G. assert (G0 := G 0%nat ltac:(simpl; lia)). assert (G1 := G 1%nat ltac:(simpl; lia)). assert (G2 := G 2%nat ltac:(simpl; lia)). cbn [nth] in *.
    apply bg4; exists h; repeat split; auto; lra.
  - intros a b c d e t IH _ I G. assert (G0 := G 0%nat ltac:(simpl; lia)). assert (G1 := G 1%nat ltac:(simpl; lia)). cbn [nth] in G0, G1. apply bgS.
    + exists h. repeat split; auto; lra.
    + apply incr_inv in I. destruct I as [_ I]. apply incr_inv in I. destruct I as [_ I]. apply IH; auto; [simpl; lia|]. intros i Hi. specialize (G (S (S i)) ltac:(simpl in *; lia)). exact G.
Qed.
Theorem c139_simpson_error : forall f f1 f2 K h x, (3 <= length x)%nat -> incr x -> quasi_uniform x -> 0 <= K -> 0 <= h -> (forall i, (S i < length x)%nat -> nth (S i) x 0 - nth i x 0 <= h) ->
  (forall s, hd 0 x <= s <= last x 0 -> is_derive f s (f1 s)) -> (forall s, hd 0 x <= s <= last x 0 -> is_derive f1 s (f2 s)) ->
  (forall s t, hd 0 x <= s -> s <= t -> t <= last x 0 -> Rabs (f2 t - f2 s) <= K * (t - s)) ->
  Rabs (simpx x (map f x) - RInt f (hd 0 x) (last x 0)) <= 3 / 8 * K * h ^ 3 * (last x 0 - hd 0 x).
Proof.
  intros f f1 f2 K h x N I Q HK Hh G D1 D2 L. rewrite simpx_pts_eq.
  assert (L' : forall c s t, hd 0 x <= c -> c <= s -> s <= t -> t <= last x 0 -> Rabs (f2 t - f2 s) <= (fun _ => K) c * (t - s)) by (intros; apply L; lra).
  assert (X := simpx_err f f1 f2 (fun _ => K) (hd 0 x) (last x 0) D1 D2 L' (fun t => 3 / 8 * (K * h ^ 3) * t) x I Q (budget_gaps K h HK Hh x N I G) ltac:(lra) ltac:(lra)).
  cbv beta in X. lra.
Qed.
Print Assumptions c139_simpson_error.

(** ** logarithmic grids *)
Lemma budget_seq : forall K Phi (F : nat -> R),
  (forall i, exists h, F (S i) - F i <= h /\ F (S (S i)) - F (S i) <= h /\ 3 / 8 * (K (F i) * h ^ 3) * (F (S (S i)) - F i) <= Phi (F (S (S i))) - Phi (F i)) ->
  (forall i, exists h, F (S i) - F i <= h /\ F (S (S i)) - F (S i) <= h /\ 3 / 8 * (K (F i) * h ^ 3) * (F (S (S i)) - F (S i)) <= Phi (F (S (S i))) - Phi (F (S i))) ->
  forall m k, budget K Phi (map F (seq k (3 + m))).
Proof.
  intros K Phi F P C. assert (H : forall n m k, (m <= n)%nat -> budget K Phi (map F (seq k (3 + m)))); [|intros m k; now apply (H m)].
  induction n as [|n IH]; intros m k Hm.
  - replace m with 0%nat by lia. apply bg3. apply P.
  - destruct m as [|[|m]]; [apply bg3, P|apply bg4; [apply P|apply C]|]. assert (B := IH m (S (S k)) ltac:(lia)). cbn [seq map plus] in *. apply bgS; [apply P|exact B].
Qed.
Lemma log_ratio : forall a b n q, 0 < a -> (2 <= n)%nat -> 0 < q -> q ^ (n - 1) * a = b -> ln q = (ln b - ln a) / INR (n - 1).
Proof.
  intros a b n q A N Q E. assert (P : 0 < INR (n - 1)) by (apply lt_0_INR; lia). rewrite <- E. rewrite ln_mult by (auto; now apply pow_lt). rewrite ln_pow by auto. field. lra.
Qed.
Section Log.
  Variables (M q : R).
  Hypotheses (HM : 0 <= M) (Q1 : 1 < q).
  Lemma log_panel : forall p, 0 < p -> 3 / 8 * (M / (p ^ 3 * sqrt p) * ((q - 1) * q * p) ^ 3) * (q * (q * p) - p) <= 3 / 4 * M * q ^ 4 * (q - 1) ^ 3 * sqrt (q * (q * p)) - 3 / 4 * M * q ^ 4 * (q - 1) ^ 3 * sqrt p.
  Proof.
    intros p P. assert (SP : 0 < sqrt p) by (apply sqrt_lt_R0; auto). assert (E : p = sqrt p ^ 2) by (rewrite pow2_sqrt; lra).
    replace (sqrt (q * (q * p))) with (q * sqrt p). 2:{ replace (q * (q * p)) with (q ^ 2 * p) by ring. rewrite sqrt_mult_alt by (apply pow2_ge_0). now rewrite sqrt_pow2 by lra. }
    set (s := sqrt p) in *. clearbody s. rewrite E. replace (3 / 8 * (M / ((s ^ 2) ^ 3 * s) * ((q - 1) * q * s ^ 2) ^ 3) * (q * (q * s ^ 2) - s ^ 2)) with (M * (q - 1) ^ 3 * q ^ 3 * s * (3 / 8 * (q ^ 2 - 1))) by (field; lra).
    replace (3 / 4 * M * q ^ 4 * (q - 1) ^ 3 * (q * s) - 3 / 4 * M * q ^ 4 * (q - 1) ^ 3 * s) with (M * (q - 1) ^ 3 * q ^ 3 * s * (3 / 4 * q * (q - 1))) by ring.
    apply Rmult_le_compat_l; [|nra]. repeat apply Rmult_le_pos; auto; try (apply pow_le; lra); lra.
  Qed.
  Lemma log_cart : forall p, 0 < p -> 3 / 8 * (M / (p ^ 3 * sqrt p) * ((q - 1) * q * p) ^ 3) * (q * (q * p) - q * p) <= 3 / 4 * M * q ^ 4 * (q - 1) ^ 3 * sqrt (q * (q * p)) - 3 / 4 * M * q ^ 4 * (q - 1) ^ 3 * sqrt (q * p).
  Proof.
    intros p P. assert (SP : 0 < sqrt p) by (apply sqrt_lt_R0; auto). assert (E : p = sqrt p ^ 2) by (rewrite pow2_sqrt; lra).
    assert (EQ : q = sqrt q ^ 2) by (rewrite pow2_sqrt; lra). assert (W : 1 < sqrt q) by (rewrite <- sqrt_1; apply sqrt_lt_1; lra).
    rewrite (sqrt_mult q (q * p)) by (try lra; apply Rmult_le_pos; lra). rewrite (sqrt_mult q p) by lra.
    replace (sqrt q * (sqrt q * sqrt p)) with (q * sqrt p) by (rewrite <- Rmult_assoc, sqrt_sqrt; lra). set (w := sqrt q) in *.
    set (s := sqrt p) in *. clearbody s. rewrite E. replace (3 / 8 * (M / ((s ^ 2) ^ 3 * s) * ((q - 1) * q * s ^ 2) ^ 3) * (q * (q * s ^ 2) - q * s ^ 2)) with (M * (q - 1) ^ 3 * q ^ 4 * s * (3 / 8 * (q - 1))) by (field; lra).
    replace (3 / 4 * M * q ^ 4 * (q - 1) ^ 3 * (q * s) - 3 / 4 * M * q ^ 4 * (q - 1) ^ 3 * (w * s)) with (M * (q - 1) ^ 3 * q ^ 4 * s * (3 / 4 * (q - w))) by ring.
    apply Rmult_le_compat_l; [|clearbody w; nra]. repeat apply Rmult_le_pos; auto; try (apply pow_le; lra); lra.
  Qed.
End Log.
(** a function whose third derivative (or the slope of whose second) falls as t^(-7/2), as for an inverse-square-root singularity, on n logarithmically spaced points of ratio q *)
Theorem c139_log_grid : forall f f1 f2 M a b n q, 0 < a < b -> (3 <= n)%nat -> 1 < q <= 2 -> q ^ (n - 1) * a = b -> 0 <= M ->
  (forall s, a <= s <= b -> is_derive f s (f1 s)) -> (forall s, a <= s <= b -> is_derive f1 s (f2 s)) ->
  (forall c s t, a <= c -> c <= s -> s <= t -> t <= b -> Rabs (f2 t - f2 s) <= M / (c ^ 3 * sqrt c) * (t - s)) ->
  Rabs (simpx (logspace a b n) (map f (logspace a b n)) - RInt f a b) <= 3 / 4 * M * q ^ 4 * (q - 1) ^ 3 * (sqrt b - sqrt a).
Proof.
  intros f f1 f2 M a b n q [A AB] N [Q1 Q2] E HM D1 D2 L. rewrite simpx_pts_eq. assert (LR := log_ratio a b n q A ltac:(lia) ltac:(lra) E).
  assert (Hh := logspace_hd a b n A ltac:(lia)). assert (Hl := logspace_last a b n ltac:(lra) ltac:(lia)).
  assert (B : budget (fun c => M / (c ^ 3 * sqrt c)) (fun t => 3 / 4 * M * q ^ 4 * (q - 1) ^ 3 * sqrt t) (logspace a b n)).
  { unfold logspace, linspace. rewrite map_map. rewrite <- LR. replace n with (3 + (n - 3))%nat by lia.
    set (F := fun i => exp (ln a + INR i * ln q)). change (budget (fun c => M / (c ^ 3 * sqrt c)) (fun t => 3 / 4 * M * q ^ 4 * (q - 1) ^ 3 * sqrt t) (map F (seq 0 (3 + (n - 3))))).
    assert (FP : forall i, 0 < F i) by (intros; apply exp_pos). assert (FS : forall i, F (S i) = q * F i). { intros i. unfold F. rewrite S_INR. replace (ln a + (INR i + 1) * ln q) with (ln q + (ln a + INR i * ln q)) by ring. rewrite exp_plus, exp_ln by lra. reflexivity. }
    apply budget_seq; intros i; exists ((q - 1) * q * F i); rewrite !FS; assert (P := FP i); assert (0 <= (q - 1) * (q - 1) * F i) by (apply Rmult_le_pos; [apply Rmult_le_pos|]; lra); (split; [nra|]; split; [nra|]); [apply log_panel|apply log_cart]; auto. }
  assert (X := simpx_err f f1 f2 (fun c => M / (c ^ 3 * sqrt c)) a b D1 D2 L (fun t => 3 / 4 * M * q ^ 4 * (q - 1) ^ 3 * sqrt t) (logspace a b n) (logspace_incr a b n A AB)). rewrite Hh, Hl in X. cbv beta in X.
  assert (QU : quasi_uniform (logspace a b n)); [|specialize (X QU B ltac:(lra) ltac:(lra)); lra]. apply logspace_qu; auto. rewrite <- E. apply Rmult_le_compat_r; [lra|]. apply pow_incr. lra.
Qed.
Print Assumptions c139_log_grid.

(** ** the projected correlation function: the integrand is r xi(r) / sqrt(y (y + 2 rp)), r = y + rp *)
Section Kernel.
  Variable rp : R.
  Hypothesis RP : 0 < rp.
  Let P y := (y + 2 * rp) * y.
  Definition ker y := / sqrt (P y).
  Definition ker1 y := - (y + rp) * ker y ^ 3.
  Definition ker2 y := 3 * (y + rp) ^ 2 * ker y ^ 5 - ker y ^ 3.
  Definition ker3 y := 9 * (y + rp) * ker y ^ 5 - 15 * (y + rp) ^ 3 * ker y ^ 7.
  Lemma P_pos : forall y, 0 < y -> 0 < P y. Proof. intros. unfold P. apply Rmult_lt_0_compat; lra. Qed.
  Lemma ker_pos : forall y, 0 < y -> 0 < ker y. Proof. intros. apply Rinv_0_lt_compat, sqrt_lt_R0, P_pos; auto. Qed.
  Lemma ker_sq : forall y, 0 < y -> ker y ^ 2 * P y = 1.
  Proof. intros y Y. assert (H := P_pos y Y). unfold ker. rewrite pow_inv, pow2_sqrt by lra. apply Rinv_l. lra. Qed.
  Lemma ker_d : forall y, 0 < y -> is_derive ker y (ker1 y).
  Proof.
    intros y Y. assert (H := P_pos y Y). assert (S : 0 < sqrt (P y)) by now apply sqrt_lt_R0. unfold ker1, ker, P in *. auto_derive.
    - split; [lra|]. split; [|auto]. lra.
    - assert (E : sqrt ((y + 2 * rp) * y) ^ 2 = (y + 2 * rp) * y) by (rewrite pow2_sqrt; lra). field. lra.
  Qed.
  Lemma ker1_d : forall y, 0 < y -> is_derive ker1 y (ker2 y).
  Proof.
    intros y Y. assert (D := ker_d y Y). unfold ker1. auto_derive; [eexists; exact D|]. assert (U := is_derive_unique ker y _ D). change (fun x => ker x) with ker. rewrite U. unfold ker1, ker2. ring.
  Qed.
  Lemma ker2_d : forall y, 0 < y -> is_derive ker2 y (ker3 y).
  Proof.
    intros y Y. assert (D := ker_d y Y). unfold ker2. auto_derive; [repeat split; eexists; exact D|]. assert (U := is_derive_unique ker y _ D). change (fun x => ker x) with ker. rewrite U. unfold ker1, ker3. ring.
  Qed.
  (** y (y + rp) ker^2 <= 1 *)
  Lemma ker_key : forall y, 0 < y -> 0 <= y * (y + rp) * ker y ^ 2 <= 1.
  Proof.
    intros y Y. assert (E := ker_sq y Y). assert (0 <= ker y ^ 2) by apply pow2_ge_0. unfold P in E. split; [apply Rmult_le_pos; [nra|auto]|]. rewrite <- E. nra.
  Qed.
  Lemma ker_b : forall y, 0 < y -> Rabs (ker1 y) <= ker y / y /\ Rabs (ker2 y) <= 3 * ker y / y ^ 2 /\ Rabs (ker3 y) <= 15 * ker y / y ^ 3.
  Proof.
    intros y Y. assert (K := ker_pos y Y). assert (E := ker_sq y Y). assert (U := ker_key y Y). set (u := y * (y + rp) * ker y ^ 2) in *.
    assert (W : (y + rp) ^ 2 * ker y ^ 2 >= 1). { unfold P in E. assert (0 <= rp ^ 2 * ker y ^ 2) by (apply Rmult_le_pos; apply pow2_ge_0). nra. }
    assert (E1 : ker1 y = - (u * ker y / y)) by (unfold ker1, u; field; lra).
    assert (E2 : ker2 y = 3 * (u ^ 2 * ker y / y ^ 2) - ker y ^ 3) by (unfold ker2, u; field; lra).
    assert (E2' : ker2 y = ker y ^ 3 * (3 * ((y + rp) ^ 2 * ker y ^ 2) - 1)) by (unfold ker2; ring).
    assert (E3 : ker3 y = 9 * (y + rp) * ker y ^ 5 - 15 * (u ^ 3 * ker y / y ^ 3)) by (unfold ker3, u; field; lra).
    assert (E3' : ker3 y = - ((y + rp) * ker y ^ 5 * (15 * ((y + rp) ^ 2 * ker y ^ 2) - 9))) by (unfold ker3; ring).
    assert (K3 : 0 < ker y ^ 3) by now apply pow_lt. assert (K5 : 0 < ker y ^ 5) by now apply pow_lt.
    assert (Z1 : 0 < ker y / y) by now apply Rdiv_lt_0_compat. assert (Z2 : 0 < ker y / y ^ 2) by (apply Rdiv_lt_0_compat; auto; now apply pow_lt). assert (Z3 : 0 < ker y / y ^ 3) by (apply Rdiv_lt_0_compat; auto; now apply pow_lt).
    assert (U2 : u ^ 2 <= 1) by nra. assert (U3 : u ^ 3 <= 1) by (assert (u ^ 3 = u * u ^ 2) by ring; nra).
    repeat split.
    - rewrite E1, Rabs_Ropp. replace (u * ker y / y) with (u * (ker y / y)) by (field; lra). rewrite Rabs_pos_eq; nra.
    - rewrite Rabs_pos_eq; [rewrite E2|rewrite E2'; apply Rmult_le_pos; lra]. replace (u ^ 2 * ker y / y ^ 2) with (u ^ 2 * (ker y / y ^ 2)) by (field; lra). replace (3 * ker y / y ^ 2) with (3 * (ker y / y ^ 2)) by (field; lra). nra.
    - assert (0 < (y + rp) * ker y ^ 5) by (apply Rmult_lt_0_compat; lra). assert (S : 0 <= - ker3 y) by (rewrite E3'; nra). rewrite Rabs_left1 by lra. rewrite E3.
      replace (u ^ 3 * ker y / y ^ 3) with (u ^ 3 * (ker y / y ^ 3)) by (field; lra). replace (15 * ker y / y ^ 3) with (15 * (ker y / y ^ 3)) by (field; lra). nra.
  Qed.
  Lemma ker_dec : forall c y, 0 < c -> c <= y -> ker y <= ker c.
  Proof. intros c y C Y. unfold ker. apply Rinv_le_contravar; [apply sqrt_lt_R0, P_pos; auto|]. apply sqrt_le_1_alt. unfold P. nra. Qed.
  Lemma ker_at : forall c, 0 < c -> ker c <= / (sqrt (2 * rp) * sqrt c).
  Proof.
    intros c C. rewrite <- sqrt_mult by lra. unfold ker. apply Rinv_le_contravar; [apply sqrt_lt_R0; nra|]. apply sqrt_le_1_alt. unfold P. nra.
  Qed.
  (** bounds to the right of c *)
  Lemma ker_right : forall c y, 0 < c -> c <= y -> Rabs (ker y) <= ker c /\ Rabs (ker1 y) <= ker c / c /\ Rabs (ker2 y) <= 3 * ker c / c ^ 2 /\ Rabs (ker3 y) <= 15 * ker c / c ^ 3.
  Proof.
    intros c y C Y. destruct (ker_b y ltac:(lra)) as [B1 [B2 B3]]. assert (K := ker_pos y ltac:(lra)). assert (D := ker_dec c y C Y).
    assert (I : forall n, 0 <= / y ^ n <= / c ^ n). { intros n. split; [left; apply Rinv_0_lt_compat, pow_lt; lra|]. apply Rinv_le_contravar; [apply pow_lt; lra|]. apply pow_incr. lra. }
    assert (M : forall n k, 0 <= k -> k * ker y / y ^ n <= k * ker c / c ^ n). { intros n k Hk. unfold Rdiv. apply Rmult_le_compat; [apply Rmult_le_pos; lra|apply I|apply Rmult_le_compat_l; lra|apply I]. }
    split; [rewrite Rabs_pos_eq; lra|]. split; [|split; eapply Rle_trans; eauto; apply M; lra].
    eapply Rle_trans; [exact B1|]. assert (Z := M 1%nat 1 ltac:(lra)). rewrite !pow_1, !Rmult_1_l in Z. exact Z.
  Qed.
End Kernel.
Lemma lip_of_derive : forall (g g' : R -> R) B s t, s <= t -> (forall x, s <= x <= t -> is_derive g x (g' x)) -> (forall x, s <= x <= t -> Rabs (g' x) <= B) -> Rabs (g t - g s) <= B * (t - s).
Proof.
  intros g g' B s t [ST|ST] D H; [|subst; rewrite !Rminus_eq_0, Rabs_R0, Rmult_0_r; lra]. destruct (mvt g g' s t ST D) as [c [C E]]. rewrite E, Rabs_mult, (Rabs_pos_eq (t - s)) by lra. apply Rmult_le_compat_r; [lra|]. auto.
Qed.
Lemma prod_lip : forall u u' v v' U V Lu Lv d, Rabs u' <= U -> Rabs v <= V -> Rabs (u - u') <= Lu * d -> Rabs (v - v') <= Lv * d -> 0 <= d -> 0 <= Lu * d -> Rabs (u * v - u' * v') <= (Lu * V + U * Lv) * d.
Proof.
  intros u u' v v' U V Lu Lv d A B C D Hd Hl. replace (u * v - u' * v') with ((u - u') * v + u' * (v - v')) by ring. eapply Rle_trans; [apply Rabs_triang|]. rewrite !Rabs_mult.
  assert (Rabs (u - u') * Rabs v <= Lu * d * V) by (apply Rmult_le_compat; auto; apply Rabs_pos). assert (Rabs u' * Rabs (v - v') <= U * (Lv * d)) by (apply Rmult_le_compat; auto; apply Rabs_pos). nra.
Qed.

(** psi(r) = r xi(r) on [rp, rl]: bounded by B, with derivatives bounded by B/r and 2B/r^2 and the second one changing by at most 6B/c^3 per unit length beyond c
    (true with B = rp xi(rp) for xi proportional to r^-1 or r^-2; a cubic spline has such bounds too, its second derivative being piecewise linear) *)
Definition tame (psi psi1 psi2 : R -> R) (B rp rl : R) : Prop :=
  (forall r, rp <= r <= rl -> is_derive psi r (psi1 r) /\ is_derive psi1 r (psi2 r)) /\
  (forall r, rp <= r <= rl -> Rabs (psi r) <= B /\ Rabs (psi1 r) <= B / r /\ Rabs (psi2 r) <= 2 * B / r ^ 2) /\
  (forall c s t, rp <= c -> c <= s -> s <= t -> t <= rl -> Rabs (psi2 t - psi2 s) <= 6 * B / c ^ 3 * (t - s)).
Lemma shift_derive : forall (g : R -> R) a y d, is_derive g (y + a) d -> is_derive (fun y => g (y + a)) y d.
Proof. intros g a y d H. assert (X := is_derive_comp g (fun y => y + a) y d 1 H ltac:(auto_derive; auto)). replace d with (scal 1 d) by (unfold scal; simpl; unfold mult; simpl; ring). exact X. Qed.
Section Proj.
  Variables (xi psi1 psi2 : R -> R) (B rp rl : R).
  Hypotheses (RP : 0 < rp < rl) (T : tame (fun r => r * xi r) psi1 psi2 B rp rl).
  Let p y := (y + rp) * xi (y + rp).
  Let f y := p y * ker rp y.
  Let f1 y := psi1 (y + rp) * ker rp y + p y * ker1 rp y.
  Let f2 y := psi2 (y + rp) * ker rp y + 2 * (psi1 (y + rp) * ker1 rp y) + p y * ker2 rp y.
  Lemma pd : forall y, 0 < y <= rl - rp -> is_derive p y (psi1 (y + rp)).
  Proof. intros y Y. apply (shift_derive (fun r => r * xi r) rp). apply T. lra. Qed.
  Lemma p1d : forall y, 0 < y <= rl - rp -> is_derive (fun y => psi1 (y + rp)) y (psi2 (y + rp)).
  Proof. intros y Y. apply (shift_derive psi1 rp). apply T. lra. Qed.
  Lemma fd : forall y, 0 < y <= rl - rp -> is_derive f y (f1 y).
  Proof.
    intros y Y. assert (A := pd y Y). assert (D := ker_d rp (proj1 RP) y ltac:(lra)). unfold f, f1. exact (is_derive_mult p (ker rp) y _ _ A D Rmult_comm).
  Qed.
  Lemma f1d : forall y, 0 < y <= rl - rp -> is_derive f1 y (f2 y).
  Proof.
    intros y Y. assert (A := pd y Y). assert (A1 := p1d y Y). assert (D := ker_d rp (proj1 RP) y ltac:(lra)). assert (D1 := ker1_d rp (proj1 RP) y ltac:(lra)).
    assert (E := is_derive_plus _ _ y _ _ (is_derive_mult (fun y => psi1 (y + rp)) (ker rp) y _ _ A1 D Rmult_comm) (is_derive_mult p (ker1 rp) y _ _ A D1 Rmult_comm)).
    unfold f1. replace (f2 y) with (plus (plus (mult (psi2 (y + rp)) (ker rp y)) (mult (psi1 (y + rp)) (ker1 rp y))) (plus (mult (psi1 (y + rp)) (ker1 rp y)) (mult (p y) (ker2 rp y)))) by (unfold f2, plus, mult; simpl; ring). exact E.
  Qed.
  Lemma B_pos : 0 <= B.
  Proof. destruct T as [_ [H _]]. destruct (H rp ltac:(lra)) as [X _]. assert (Y := Rabs_pos (rp * xi rp)). lra. Qed.
  Lemma f2_lip : forall c s t, 0 < c -> c <= s -> s <= t -> t <= rl - rp -> Rabs (f2 t - f2 s) <= 36 * B / sqrt (2 * rp) / (c ^ 3 * sqrt c) * (t - s).
  Proof.
    intros c s t C CS ST TH. destruct T as [TD [TB TL]]. assert (BP := B_pos). assert (KC := ker_pos rp (proj1 RP) c C). set (k := ker rp c) in *.
    assert (I : forall n k' y, 0 <= k' -> c <= y -> k' / (y + rp) ^ n <= k' / c ^ n). { intros n k' y Hk Y. unfold Rdiv. apply Rmult_le_compat_l; auto. apply Rinv_le_contravar; [apply pow_lt; lra|apply pow_incr; lra]. }
    assert (PB : forall y, c <= y <= rl - rp -> Rabs (p y) <= B /\ Rabs (psi1 (y + rp)) <= B / c /\ Rabs (psi2 (y + rp)) <= 2 * B / c ^ 2).
    { intros y Y. destruct (TB (y + rp) ltac:(lra)) as [X0 [X1 X2]]. split; [exact X0|]. split; eapply Rle_trans; eauto. - assert (Z := I 1%nat B y BP ltac:(lra)). rewrite !pow_1 in Z. exact Z. - apply I; lra. }
    assert (KB := ker_right rp (proj1 RP) c). fold k in KB.
    assert (L0 : Rabs (p t - p s) <= B / c * (t - s)) by (apply (lip_of_derive p (fun y => psi1 (y + rp))); auto; intros x X; [apply pd; lra|apply PB; lra]).
    assert (L1 : Rabs (psi1 (t + rp) - psi1 (s + rp)) <= 2 * B / c ^ 2 * (t - s)) by (apply (lip_of_derive (fun y => psi1 (y + rp)) (fun y => psi2 (y + rp))); auto; intros x X; [apply p1d; lra|apply PB; lra]).
    assert (L2 : Rabs (psi2 (t + rp) - psi2 (s + rp)) <= 6 * B / c ^ 3 * (t - s)).
    { assert (X := TL (c + rp) (s + rp) (t + rp) ltac:(lra) ltac:(lra) ltac:(lra) ltac:(lra)). replace (t + rp - (s + rp)) with (t - s) in X by ring. eapply Rle_trans; [exact X|]. apply Rmult_le_compat_r; [lra|]. apply I; lra. }
    assert (M0 : Rabs (ker rp t - ker rp s) <= k / c * (t - s)) by (apply (lip_of_derive (ker rp) (ker1 rp)); auto; intros x X; [apply ker_d; lra|apply (KB x); lra]).
    assert (M1 : Rabs (ker1 rp t - ker1 rp s) <= 3 * k / c ^ 2 * (t - s)) by (apply (lip_of_derive (ker1 rp) (ker2 rp)); auto; intros x X; [apply ker1_d; lra|apply (KB x); lra]).
    assert (M2 : Rabs (ker2 rp t - ker2 rp s) <= 15 * k / c ^ 3 * (t - s)) by (apply (lip_of_derive (ker2 rp) (ker3 rp)); auto; intros x X; [apply ker2_d; lra|apply (KB x); lra]).
    destruct (PB s ltac:(lra)) as [S0 [S1 S2]]. destruct (KB t C ltac:(lra)) as [T0 [T1 [T2 _]]].
    assert (C2 : 0 < c ^ 2) by now apply pow_lt. assert (C3 : 0 < c ^ 3) by now apply pow_lt.
    assert (X2 := prod_lip _ _ _ _ _ _ _ _ (t - s) S2 T0 L2 M0 ltac:(lra) ltac:(apply Rmult_le_pos; [apply div_pos|]; lra)).
    assert (X1 := prod_lip _ _ _ _ _ _ _ _ (t - s) S1 T1 L1 M1 ltac:(lra) ltac:(apply Rmult_le_pos; [apply div_pos|]; lra)).
    assert (X0 := prod_lip _ _ _ _ _ _ _ _ (t - s) S0 T2 L0 M2 ltac:(lra) ltac:(apply Rmult_le_pos; [apply div_pos|]; lra)).
    assert (E : Rabs (f2 t - f2 s) <= 36 * B * k / c ^ 3 * (t - s)).
    { unfold f2. replace (_ - _) with ((psi2 (t + rp) * ker rp t - psi2 (s + rp) * ker rp s) + 2 * (psi1 (t + rp) * ker1 rp t - psi1 (s + rp) * ker1 rp s) + (p t * ker2 rp t - p s * ker2 rp s)) by ring.
      eapply Rle_trans; [apply Rabs_triang|]. eapply Rle_trans; [apply Rplus_le_compat_r, Rabs_triang|]. rewrite (Rabs_mult 2), (Rabs_pos_eq 2) by lra.
      replace (36 * B * k / c ^ 3 * (t - s)) with ((6 * B / c ^ 3 * k + 2 * B / c ^ 2 * (k / c)) * (t - s) + 2 * ((2 * B / c ^ 2 * (k / c) + B / c * (3 * k / c ^ 2)) * (t - s)) + (B / c * (3 * k / c ^ 2) + B * (15 * k / c ^ 3)) * (t - s)) by (field; lra). lra. }
    eapply Rle_trans; [exact E|]. apply Rmult_le_compat_r; [lra|]. assert (KA := ker_at rp (proj1 RP) c C). fold k in KA. assert (0 < sqrt (2 * rp)) by (apply sqrt_lt_R0; lra). assert (0 < sqrt c) by now apply sqrt_lt_R0.
    replace (36 * B / sqrt (2 * rp) / (c ^ 3 * sqrt c)) with (36 * B / c ^ 3 * / (sqrt (2 * rp) * sqrt c)) by (field; repeat split; lra). replace (36 * B * k / c ^ 3) with (36 * B / c ^ 3 * k) by (field; lra).
    apply Rmult_le_compat_l; auto. apply div_pos; lra.
  Qed.
  Lemma integrand_eq : forall y, proj_integrand xi rp y = f y.
  Proof. intros. reflexivity. Qed.
  Lemma proj_disc : forall a n q, 0 < a < rl - rp -> (3 <= n)%nat -> 1 < q <= 2 -> q ^ (n - 1) * a = rl - rp ->
    Rabs (simpx (logspace a (rl - rp) n) (map (proj_integrand xi rp) (logspace a (rl - rp) n)) - RInt (proj_integrand xi rp) a (rl - rp)) <= 27 * B * q ^ 4 * (q - 1) ^ 3 * sqrt ((rl - rp) / (2 * rp)).
  Proof.
    intros a n q A N Q E. assert (BP := B_pos). assert (S2 : 0 < sqrt (2 * rp)) by (apply sqrt_lt_R0; lra).
    assert (X := c139_log_grid f f1 f2 (36 * B / sqrt (2 * rp)) a (rl - rp) n q A N Q E ltac:(apply div_pos; lra) ltac:(intros; apply fd; lra) ltac:(intros; apply f1d; lra) ltac:(intros; apply f2_lip; lra)).
    change (map (proj_integrand xi rp) (logspace a (rl - rp) n)) with (map f (logspace a (rl - rp) n)). change (RInt (proj_integrand xi rp) a (rl - rp)) with (RInt f a (rl - rp)).
    eapply Rle_trans; [exact X|]. assert (SA := sqrt_pos a). replace (sqrt ((rl - rp) / (2 * rp))) with (sqrt (rl - rp) * / sqrt (2 * rp)) by (rewrite sqrt_div by lra; reflexivity).
    replace (27 * B * q ^ 4 * (q - 1) ^ 3 * (sqrt (rl - rp) * / sqrt (2 * rp))) with (3 / 4 * (36 * B / sqrt (2 * rp)) * q ^ 4 * (q - 1) ^ 3 * sqrt (rl - rp)) by (field; lra).
    apply Rmult_le_compat_l; [|lra]. repeat apply Rmult_le_pos; try (apply pow_le; lra); try lra. left. now apply Rinv_0_lt_compat.
  Qed.
End Proj.

(** the value projected_corr_gal returns is within 54 B q^4 (q-1)^3 sqrt((rl-rp)/(2 rp)) of the integral over the range it covers, q the ratio of neighbouring
    grid points *)
Theorem c139_projected : forall xi psi1 psi2 B r xir rl rps i v th, let rp := nth i rps 0 in
  projected_at xi r xir rl rps i = ProjOk v -> snd (slope_state r xir i) = Some th ->
  0 < rp < rl -> tame (fun r => r * xi r) psi1 psi2 B rp rl -> min_y th rp < rl - rp ->
  let q := Rpower ((rl - rp) / min_y th rp) (/ 999) in q <= 2 ->
  Rabs (v - 2 * RInt (proj_integrand xi rp) (min_y th rp) (rl - rp)) <= 54 * B * q ^ 4 * (q - 1) ^ 3 * sqrt ((rl - rp) / (2 * rp)).
Proof.
  intros xi psi1 psi2 B r xir rl rps i v th rp V TH RP T Y q Q2. unfold projected_at in V. rewrite TH in V. fold rp in V.
  destruct (Rltb 0 (min_y th rp)) eqn:E0; [|discriminate]. destruct (Rltb 0 (rl - rp)); [|discriminate]. apply Rltb_spec in E0. apply (f_equal (fun z => match z with ProjOk t => t | _ => 0 end)) in V. cbv beta iota delta [andb] in V. rewrite <- V. clear V.
  assert (RA : 1 < (rl - rp) / min_y th rp). { apply (Rmult_lt_reg_r (min_y th rp)); auto. unfold Rdiv. rewrite Rmult_assoc, Rinv_l by lra. lra. }
  assert (Q1 : 1 < q). { unfold q. rewrite <- (Rpower_O ((rl - rp) / min_y th rp)) at 1 by lra. apply Rpower_lt; auto. lra. }
  assert (QE : q ^ (1000 - 1) * min_y th rp = rl - rp).
  { change (1000 - 1)%nat with 999%nat. assert (I : INR 999 = 999) by (rewrite INR_IZR_INZ; reflexivity). rewrite <- Rpower_pow by (unfold q; apply exp_pos). unfold q. rewrite Rpower_mult, I. replace (/ 999 * 999) with 1 by lra. rewrite Rpower_1 by lra. field. lra. }
  assert (X := proj_disc xi psi1 psi2 B rp rl RP T (min_y th rp) 1000 q (conj E0 Y) ltac:(lia) (conj Q1 Q2) QE). cbv zeta in X. clearbody q. remember (simpx (logspace (min_y th rp) (rl - rp) 1000) (map (proj_integrand xi rp) (logspace (min_y th rp) (rl - rp) 1000))) as sv eqn:ES.
  assert (ES' : simpx (y_grid th rl rp) (map (proj_integrand xi rp) (y_grid th rl rp)) = sv) by (rewrite ES; reflexivity). rewrite ES'.
  set (w := RInt (proj_integrand xi rp) (min_y th rp) (rl - rp)) in *. replace (sv * 2 - 2 * w) with (2 * (sv - w)) by ring. rewrite Rabs_mult, (Rabs_pos_eq 2) by lra. lra.
Qed.
Print Assumptions c139_projected.

(** with at most eight decades between the two ends of the grid - rl at most 10^4 theta rp - neighbouring points are within 2%, and the error is below 5e-4 B sqrt((rl-rp)/(2 rp)) *)
Lemma root_le : forall x p n, 0 < x -> 1 < p -> (0 < n)%nat -> x <= p ^ n -> Rpower x (/ INR n) <= p.
Proof.
  intros x p n X P N H. assert (I : 0 < INR n) by now apply lt_0_INR. assert (E : Rpower (p ^ n) (/ INR n) = p).
  { rewrite <- Rpower_pow by lra. rewrite Rpower_mult, Rinv_r by lra. apply Rpower_1. lra. }
  rewrite <- E. apply Rle_Rpower_l; [left; now apply Rinv_0_lt_compat|]. lra.
Qed.
Lemma doublings : forall p a b n, 1 < p -> 2 <= p ^ a -> (a * b <= n)%nat -> 2 ^ b <= p ^ n.
Proof.
  intros p a b n P H N. apply Rle_trans with ((p ^ a) ^ b); [apply pow_incr; lra|]. rewrite <- pow_mult. apply Rle_pow; [lra|auto].
Qed.
Lemma two_percent : 2 <= (102 / 100) ^ 36.
Proof.
  assert (A : 1195 / 1000 <= (102 / 100) ^ 9) by lra. change 36%nat with (9 * 4)%nat. rewrite pow_mult. apply Rle_trans with ((1195 / 1000) ^ 4); [lra|]. apply pow_incr. lra.
Qed.
Lemma ratio_small : forall x, 1 < x <= 100000000 -> 1 < Rpower x (/ 999) <= 102 / 100.
Proof.
  intros x [X1 X2]. split. { rewrite <- (Rpower_O x) at 1 by lra. apply Rpower_lt; auto. lra. }
  assert (I : INR 999 = 999) by (rewrite INR_IZR_INZ; reflexivity). rewrite <- I. apply root_le; [lra|lra|lia|]. apply Rle_trans with (2 ^ 27); [lra|]. apply (doublings _ 36); [lra|exact two_percent|lia].
Qed.
Theorem c139_eight_decades : forall xi psi1 psi2 B r xir rl rps i v th, let rp := nth i rps 0 in
  projected_at xi r xir rl rps i = ProjOk v -> snd (slope_state r xir i) = Some th ->
  0 < rp < rl -> tame (fun r => r * xi r) psi1 psi2 B rp rl -> min_y th rp < rl - rp <= 100000000 * min_y th rp ->
  Rabs (v - 2 * RInt (proj_integrand xi rp) (min_y th rp) (rl - rp)) <= 5 / 10000 * B * sqrt ((rl - rp) / (2 * rp)).
Proof.
  intros xi psi1 psi2 B r xir rl rps i v th rp V TH RP T [Y Y2].
  assert (E0 : 0 < min_y th rp). { unfold projected_at in V. rewrite TH in V. fold rp in V. destruct (Rltb 0 (min_y th rp)) eqn:E0; [|discriminate]. now apply Rltb_spec. }
  assert (RA : 1 < (rl - rp) / min_y th rp <= 100000000).
  { split; [apply (Rmult_lt_reg_r (min_y th rp))|apply (Rmult_le_reg_r (min_y th rp))]; auto; unfold Rdiv; rewrite Rmult_assoc, Rinv_l by lra; lra. }
  destruct (ratio_small _ RA) as [Q1 Q2]. assert (QL : Rpower ((rl - rp) / min_y th rp) (/ 999) <= 2) by lra. assert (X := c139_projected xi psi1 psi2 B r xir rl rps i v th V TH RP T Y QL). cbv zeta in X. fold rp in X.
  set (q := Rpower ((rl - rp) / min_y th rp) (/ 999)) in *. clearbody q. eapply Rle_trans; [exact X|].
  apply Rmult_le_compat_r; [apply sqrt_pos|]. assert (BP := B_pos xi psi1 psi2 B rp rl RP T).
  assert (A : q ^ 4 <= (102 / 100) ^ 4) by (apply pow_incr; lra). assert (C : (q - 1) ^ 3 <= (2 / 100) ^ 3) by (apply pow_incr; lra).
  assert (A0 : 0 <= q ^ 4) by (apply pow_le; lra). assert (C0 : 0 <= (q - 1) ^ 3) by (apply pow_le; lra).
  assert (D : q ^ 4 * (q - 1) ^ 3 <= (102 / 100) ^ 4 * (2 / 100) ^ 3) by (apply Rmult_le_compat; auto).
  assert (D2 : 54 * (q ^ 4 * (q - 1) ^ 3) <= 5 / 10000) by (simpl in *; lra).
  replace (54 * B * q ^ 4 * (q - 1) ^ 3) with (54 * (q ^ 4 * (q - 1) ^ 3) * B) by ring. apply Rmult_le_compat_r; auto.
Qed.
Print Assumptions c139_eight_decades.
(** and, for a non-negative xi that does not rise beyond rp, the distance to the whole line of sight between 0 and sqrt(rl^2 - rp^2) *)
Theorem c139_total : forall xi psi1 psi2 B r xir rl rps i v th, let rp := nth i rps 0 in
  projected_at xi r xir rl rps i = ProjOk v -> snd (slope_state r xir i) = Some th -> th <= 2 ->
  0 < rp < rl -> tame (fun r => r * xi r) psi1 psi2 B rp rl -> min_y th rp < rl - rp <= 100000000 * min_y th rp ->
  (forall r, 0 < r -> continuous xi r) -> (forall r, rp <= r -> 0 <= xi r <= xi rp) ->
  Rabs (v - line_of_sight xi rp 0 (sqrt (rl ^ 2 - rp ^ 2))) <= 402 / 10000 * (rp * xi rp) + 5 / 10000 * B * sqrt ((rl - rp) / (2 * rp)).
Proof.
  intros xi psi1 psi2 B r xir rl rps i v th rp V TH T2 RP T Y C D.
  assert (E0 : 0 < min_y th rp). { unfold projected_at in V. rewrite TH in V. fold rp in V. destruct (Rltb 0 (min_y th rp)) eqn:E0; [|discriminate]. now apply Rltb_spec. }
  assert (T0 : 0 < th). { unfold min_y in E0. destruct (Rlt_le_dec 0 th); auto. exfalso. assert (0 < (1 / 100) ^ 2 * rp) by (apply Rmult_lt_0_compat; [simpl|]; lra). rewrite Rmult_assoc in E0. nra. }
  assert (X := c139_eight_decades xi psi1 psi2 B r xir rl rps i v th V TH RP T Y). fold rp in X.
  destruct (c135_neglected_part xi rp th rl RP (conj T0 T2) C D (proj1 Y)) as [N _]. cbv zeta in N.
  set (k := 2 * RInt (proj_integrand xi rp) (min_y th rp) (rl - rp)) in *. set (w := line_of_sight xi rp 0 (sqrt (rl ^ 2 - rp ^ 2))) in *.
  replace (v - w) with ((v - k) + - (w - k)) by ring. eapply Rle_trans; [apply Rabs_triang|]. rewrite Rabs_Ropp, (Rabs_pos_eq (w - k)) by lra. lra.
Qed.
Print Assumptions c139_total.
(** the hypothesis on xi: an inverse square law has it *)
Lemma tame_inverse_square : forall A rp rl, 0 <= A -> 0 < rp < rl -> tame (fun r => r * (A / r ^ 2)) (fun r => - (A / r ^ 2)) (fun r => 2 * A / r ^ 3) (A / rp) rp rl.
Proof.
  intros A rp rl HA RP. assert (I : forall c r n, 0 < c -> c <= r -> 0 < / r ^ n <= / c ^ n). { intros c r n C R0. split; [apply Rinv_0_lt_compat, pow_lt; lra|]. apply Rinv_le_contravar; [apply pow_lt; lra|apply pow_incr; lra]. }
  assert (RPI : 0 < / rp) by (apply Rinv_0_lt_compat; lra).
  assert (J : forall r, rp <= r -> 0 < / r <= / rp). { intros r Hr. assert (Z := I rp r 1%nat ltac:(lra) Hr). now rewrite !pow_1 in Z. }
  split; [|split].
  - intros r Hr. split; auto_derive; try (repeat split; try (apply Rgt_not_eq; apply pow_lt; lra); simpl; nra); field; lra.
  - intros r Hr. destruct (J r ltac:(lra)) as [J0 J1]. repeat split.
    + replace (r * (A / r ^ 2)) with (A * / r) by (field; lra). rewrite Rabs_pos_eq by (apply Rmult_le_pos; lra). unfold Rdiv. apply Rmult_le_compat_l; lra.
    + rewrite Rabs_Ropp. replace (A / r ^ 2) with (A * (/ r) * / r) by (field; lra). rewrite Rabs_pos_eq by (repeat apply Rmult_le_pos; lra). unfold Rdiv. apply Rmult_le_compat_r; [lra|]. apply Rmult_le_compat_l; lra.
    + replace (2 * A / r ^ 3) with (2 * (A * / r) * / r ^ 2) by (field; lra). destruct (I r r 2%nat ltac:(lra) ltac:(lra)) as [K0 _]. rewrite Rabs_pos_eq by (apply Rmult_le_pos; [|lra]; apply Rmult_le_pos; [lra|apply Rmult_le_pos; lra]).
      unfold Rdiv at 1. apply Rmult_le_compat_r; [lra|]. apply Rmult_le_compat_l; [lra|]. apply Rmult_le_compat_l; lra.
  - intros c s t C CS ST TR. apply (lip_of_derive (fun r => 2 * A / r ^ 3) (fun r => - (6 * A / r ^ 4))); auto.
    + intros x X. auto_derive; [repeat split; try (apply Rgt_not_eq; apply pow_lt; lra); apply Rgt_not_eq; simpl; repeat apply Rmult_lt_0_compat; lra|field; lra].
    + intros x X. rewrite Rabs_Ropp. destruct (I c x 3%nat ltac:(lra) ltac:(lra)) as [K0 K1]. destruct (J x ltac:(lra)) as [J0 J1].
      replace (6 * A / x ^ 4) with (6 * (A * / x) * / x ^ 3) by (field; lra). rewrite Rabs_pos_eq by (apply Rmult_le_pos; [|lra]; apply Rmult_le_pos; [lra|apply Rmult_le_pos; lra]).
      unfold Rdiv. apply Rmult_le_compat; [apply Rmult_le_pos; [lra|apply Rmult_le_pos; lra]|lra| |lra]. apply Rmult_le_compat_l; [lra|]. apply Rmult_le_compat_l; lra.
Qed.
(** xi = 1/r^2 tabulated at 1, 2, 4, 8, projected at rp = 1 up to 80 *)
Lemma theta2 : 1 / 100 <= get_theta 2 <= 2.
Proof.
  split; [|apply theta_bounds; lra]. assert (X := theta_form 2 ltac:(lra)). cbv zeta in X. rewrite X. clear X. replace (2 - 1) with 1 by ring.
  set (s := sqrt (4 * 1 ^ 2 + 1)). assert (S5 : s ^ 2 = 5) by (unfold s; rewrite pow2_sqrt; lra). assert (S0 : 0 <= s) by apply sqrt_pos. clearbody s. assert (SB : 2 <= s <= 3) by (split; nra).
  replace (2 * 1) with (INR 2) by (simpl; ring). rewrite Rpower_pow by (apply Rdiv_lt_0_compat; simpl; lra).
  apply Rle_trans with (8 * (s + 1) * (1 / 4) / (16 * 8)); [lra|]. unfold Rdiv at 1 3. apply Rmult_le_compat; [lra|lra| |].
  - apply Rmult_le_compat; [lra|lra|simpl; lra|]. replace (1 / 4) with ((1 / 2) ^ 2) by field. apply pow_incr. split; [lra|]. simpl INR. apply (Rmult_le_reg_r (1 + s)); [lra|]. unfold Rdiv. rewrite (Rmult_assoc _ (/ (1 + s))), Rinv_l by lra. lra.
  - apply Rinv_le_contravar; [apply Rmult_lt_0_compat; [apply pow_lt|simpl]; lra|]. simpl INR. assert ((1 + s) ^ 2 <= 16) by nra. assert (0 <= (1 + s) ^ 2) by apply pow2_ge_0. apply Rmult_le_compat; lra.
Qed.
Example c139_met : exists v th, projected_at (fun r => 1 / r ^ 2) [1; 2; 4; 8] [1; 1 / 4; 1 / 16; 1 / 64] 80 [1] 0 = ProjOk v /\ snd (slope_state [1; 2; 4; 8] [1; 1 / 4; 1 / 16; 1 / 64] 0) = Some th /\ th <= 2 /\
  tame (fun r => r * (1 / r ^ 2)) (fun r => - (1 / r ^ 2)) (fun r => 2 * 1 / r ^ 3) (1 / 1) 1 80 /\ min_y th 1 < 80 - 1 <= 100000000 * min_y th 1.
Proof.
  destruct (proj2 (c72_defined_iff (fun r => 1 / r ^ 2) [1; 2; 4; 8] [1; 1 / 4; 1 / 16; 1 / 64] 80 [1] 0 ltac:(simpl; lia) ltac:(simpl; lra)) ltac:(simpl; lra)) as [v V].
  exists v, (get_theta 2). split; [exact V|]. split; [|split; [apply theta2|split; [apply tame_inverse_square; lra|]]].
  - assert (L : logslope [1; 2; 4; 8] [1; 1 / 4; 1 / 16; 1 / 64] 0 = Some (-2)).
    { assert (L2 : 0 < ln 2) by (rewrite <- ln_1; apply ln_increasing; lra). assert (B : forall x, 0 < x -> lnxi x = Some (ln x)) by (intros x H; unfold lnxi; replace (Rltb 0 x) with true by (symmetry; now apply Rltb_spec); auto).
      unfold logslope. cbn [nth]. rewrite !B by lra. f_equal. replace (1 / 4) with (/ (2 * 2)) by lra. rewrite ln_Rinv, ln_mult, ln_1 by lra. field. lra. }
    assert (F0 : floor13 (logslope [1; 2; 4; 8] [1; 1 / 4; 1 / 16; 1 / 64] 0) = 2) by (rewrite L, floor13_max; rewrite Rmax_right; lra).
    destruct (c73_slope_used [1; 2; 4; 8] [1; 1 / 4; 1 / 16; 1 / 64] 0 ltac:(simpl; lia)) as [_ X]. rewrite X.
    + simpl Nat.min. now rewrite F0.
    + intros k Hk. replace k with 0%nat by (simpl in Hk; lia). unfold flat_at. rewrite F0. lra.
  - assert (T := theta2). unfold min_y. simpl. lra.
Qed.
