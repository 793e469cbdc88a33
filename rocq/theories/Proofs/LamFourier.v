(** The Fourier transform of the self-convolution of a truncated spherical density is the square of its Fourier transform. *)
From Coq Require Import Reals Lra Psatz.
From Coquelicot Require Import Coquelicot.
From Verif Require Import Model.RBool Model.Profiles Spec.ProfileSpec Proofs.Calc Proofs.ProfileProofs Proofs.ProfileConv Proofs.Fubini.
Local Open Scope R_scope.

Lemma shift : forall (f : R -> R) a b y l, is_RInt f (a + y) (b + y) l -> is_RInt (fun s => f (s + y)) a b l.
Proof.
  intros f a b y l H. assert (A := is_RInt_comp_lin (V:=R_NormedModule) f 1 y a b l). replace (1 * a + y) with (a + y) in A by ring. replace (1 * b + y) with (b + y) in A by ring.
  specialize (A H). apply is_RInt_ext with (2 := A). intros x _. unfold scal; simpl. unfold mult; simpl. req. replace (1 * x + y) with (x + y) by ring. ring.
Qed.
Lemma flip : forall (f : R -> R) a b l, is_RInt f (- a) (- b) l -> is_RInt (fun s => f (- s)) a b (- l).
Proof.
  intros f a b l H. assert (A := is_RInt_comp_lin (V:=R_NormedModule) f (-1) 0 a b l). replace (-1 * a + 0) with (- a) in A by ring. replace (-1 * b + 0) with (- b) in A by ring.
  specialize (A H). assert (B := is_RInt_opp (V:=R_NormedModule) _ _ _ _ A). apply is_RInt_ext with (2 := B). intros x _. unfold scal, opp; simpl. unfold mult; simpl. req. replace (-1 * x + 0) with (- x) by ring. ring.
Qed.
Lemma rlin : forall (f g : R -> R) p q a b v w, is_RInt f a b v -> is_RInt g a b w -> is_RInt (fun t => p * f t + q * g t) a b (p * v + q * w).
Proof. intros. exact (is_RInt_plus (V:=R_NormedModule) _ _ a b _ _ (is_RInt_scal (V:=R_NormedModule) f a b p v H) (is_RInt_scal (V:=R_NormedModule) g a b q w H0)). Qed.

Section Inner.
  Variables (V V0 g : R -> R) (c K M : R).
  Hypothesis Hc : 0 < c.
  Hypothesis HK : 0 < K.
  Hypothesis VC : forall t, continuous V t.
  Hypothesis VE : forall t, V (- t) = V t.
  Hypothesis VF : forall t, c <= t -> V t = V c.
  Hypothesis V0E : forall t, 0 <= t <= c -> V t = V0 t.
  Hypothesis V0D : forall t, 0 <= t <= c -> is_derive V0 t (g t).
  Hypothesis GC : forall t, 0 <= t <= c -> continuous g t.
  Hypothesis HM : is_RInt (fun t => sin (K * t) * g t) 0 c M.

  Lemma cS : forall t, continuous (fun t => sin (K * t) * V t) t.
  Proof. intros t. apply (continuous_mult (K:=R_AbsRing)); [|apply VC]. apply (ex_derive_continuous (fun t => sin (K * t))). auto_derive; auto. Qed.
  Lemma cC : forall t, continuous (fun t => cos (K * t) * V t) t.
  Proof. intros t. apply (continuous_mult (K:=R_AbsRing)); [|apply VC]. apply (ex_derive_continuous (fun t => cos (K * t))). auto_derive; auto. Qed.
  Let Sf (a : R) := RInt (fun t => sin (K * t) * V t) 0 a.
  Let Cf (a : R) := RInt (fun t => cos (K * t) * V t) 0 a.
  Lemma iS : forall p q, is_RInt (fun t => sin (K * t) * V t) p q (Sf q - Sf p).
  Proof.
    assert (H : forall q, is_RInt (fun t => sin (K * t) * V t) 0 q (Sf q)) by (intros q; apply (RInt_correct (V:=R_CompleteNormedModule)), ex_cont, cS).
    intros p q. assert (A := is_RInt_swap (V:=R_NormedModule) _ _ _ _ (H p)). eapply rint_eq; [eapply chasles; [exact A|apply H]|]. unfold opp; simpl. ring.
  Qed.
  Lemma iC : forall p q, is_RInt (fun t => cos (K * t) * V t) p q (Cf q - Cf p).
  Proof.
    assert (H : forall q, is_RInt (fun t => cos (K * t) * V t) 0 q (Cf q)) by (intros q; apply (RInt_correct (V:=R_CompleteNormedModule)), ex_cont, cC).
    intros p q. assert (A := is_RInt_swap (V:=R_NormedModule) _ _ _ _ (H p)). eapply rint_eq; [eapply chasles; [exact A|apply H]|]. unfold opp; simpl. ring.
  Qed.
  Lemma S0 : Sf 0 = 0. Proof. unfold Sf. apply rint_u. exact (is_RInt_point (V:=R_NormedModule) _ 0). Qed.
  Lemma C0 : Cf 0 = 0. Proof. unfold Cf. apply rint_u. exact (is_RInt_point (V:=R_NormedModule) _ 0). Qed.
  Lemma Sev : forall a, Sf (- a) = Sf a.
  Proof.
    intros a. assert (A := flip _ 0 a _ (iS (- 0) (- a))). assert (B := iS 0 a).
    assert (A' : is_RInt (fun t => sin (K * t) * V t) 0 a (Sf (- a) - Sf (-0))).
    { assert (A2 := is_RInt_opp (V:=R_NormedModule) _ _ _ _ A). eapply rint_eq; [apply is_RInt_ext with (2 := A2)|].
      - intros x _. unfold opp; simpl. req. rewrite VE. replace (K * - x) with (- (K * x)) by ring. rewrite sin_neg. ring.
      - unfold opp; simpl. req. ring. }
    assert (U := is_RInt_unique (V:=R_CompleteNormedModule) _ _ _ _ A'). rewrite (is_RInt_unique (V:=R_CompleteNormedModule) _ _ _ _ B) in U.
    rewrite Ropp_0, !S0 in U. lra.
  Qed.
  Lemma Cod : forall a, Cf (- a) = - Cf a.
  Proof.
    intros a. assert (A := flip _ 0 a _ (iC (- 0) (- a))). assert (B := iC 0 a).
    assert (A' : is_RInt (fun t => cos (K * t) * V t) 0 a (- (Cf (- a) - Cf (-0)))).
    { apply is_RInt_ext with (2 := A). intros x _. req. rewrite VE. replace (K * - x) with (- (K * x)) by ring. now rewrite cos_neg. }
    assert (U := is_RInt_unique (V:=R_CompleteNormedModule) _ _ _ _ A'). rewrite (is_RInt_unique (V:=R_CompleteNormedModule) _ _ _ _ B) in U.
    rewrite Ropp_0, !C0 in U. lra.
  Qed.
  Lemma Stail : forall a, c <= a -> Sf a = Sf c + V c * (cos (K * c) - cos (K * a)) / K.
  Proof.
    intros a Ha. assert (A := iS c a). assert (B : is_RInt (fun t => sin (K * t) * V t) c a (V c * - cos (K * a) / K - V c * - cos (K * c) / K)).
    { eapply rext; [lra| |apply (ftc (fun t => V c * - cos (K * t) / K) (fun t => V c * sin (K * t))); [lra| |]].
      - intros x Hx. rewrite (VF x) by lra. ring.
      - intros x _. auto_derive; auto. field. lra.
      - intros x _. apply (ex_derive_continuous (fun t => V c * sin (K * t))). auto_derive; auto. }
    apply rint_u in A. apply rint_u in B. rewrite A in B. unfold Rdiv in *. lra.
  Qed.
  Lemma Ctail : forall a, c <= a -> Cf a = Cf c + V c * (sin (K * a) - sin (K * c)) / K.
  Proof.
    intros a Ha. assert (A := iC c a). assert (B : is_RInt (fun t => cos (K * t) * V t) c a (V c * sin (K * a) / K - V c * sin (K * c) / K)).
    { eapply rext; [lra| |apply (ftc (fun t => V c * sin (K * t) / K) (fun t => V c * cos (K * t))); [lra| |]].
      - intros x Hx. rewrite (VF x) by lra. ring.
      - intros x _. auto_derive; auto. field. lra.
      - intros x _. apply (ex_derive_continuous (fun t => V c * cos (K * t))). auto_derive; auto. }
    apply rint_u in A. apply rint_u in B. rewrite A in B. unfold Rdiv in *. lra.
  Qed.
  Lemma Cparts : Cf c = V c * sin (K * c) / K - M / K.
  Proof.
    assert (A := iC 0 c). rewrite C0 in A.
    assert (B : is_RInt (fun t => cos (K * t) * V0 t + sin (K * t) * g t / K) 0 c (sin (K * c) / K * V0 c - sin (K * 0) / K * V0 0)).
    { apply (ftc (fun t => sin (K * t) / K * V0 t)); [lra| |].
      - intros x Hx. assert (D1 : is_derive (fun t => sin (K * t) / K) x (cos (K * x))) by (auto_derive; auto; field; lra).
        assert (D := is_derive_mult _ _ x _ _ D1 (V0D x Hx) Rmult_comm). unfold plus, mult in D; simpl in D. replace (sin (K * x) * g x / K) with (sin (K * x) / K * g x) by (unfold Rdiv; ring). exact D.
      - intros x Hx. apply (continuous_plus (V:=R_NormedModule)).
        + apply (continuous_mult (K:=R_AbsRing)); [|apply (ex_derive_continuous V0); eexists; now apply V0D]. apply (ex_derive_continuous (fun t => cos (K * t))). auto_derive; auto.
        + apply (continuous_mult (K:=R_AbsRing)); [|apply continuous_const]. apply (continuous_mult (K:=R_AbsRing)); [|now apply GC]. apply (ex_derive_continuous (fun t => sin (K * t))). auto_derive; auto. }
    assert (E := rlin _ _ 1 (- / K) _ _ _ _ B HM).
    assert (F : is_RInt (fun t => cos (K * t) * V t) 0 c (1 * (sin (K * c) / K * V0 c - sin (K * 0) / K * V0 0) + - / K * M)).
    { eapply rext; [lra| |exact E]. intros x Hx. cbv beta. rewrite V0E by lra. unfold Rdiv. ring. }
    apply rint_u in A. apply rint_u in F. rewrite A in F. rewrite Rmult_0_r, sin_0 in F. rewrite <- V0E in F by lra. unfold Rdiv in *. lra.
  Qed.
  Lemma inner_transform : forall y, 0 <= y <= c -> RInt (fun s => sin (K * s) * (V (s + y) - V (s - y))) 0 (2 * c) = 2 * sin (K * y) * M / K.
  Proof.
    intros y Hy.
    assert (A : is_RInt (fun s => sin (K * s) * V (s + y)) 0 (2 * c) (cos (K * y) * (Sf (2 * c + y) - Sf y) - sin (K * y) * (Cf (2 * c + y) - Cf y))).
    { assert (L := rlin _ _ (cos (K * y)) (- sin (K * y)) _ _ _ _ (iS (0 + y) (2 * c + y)) (iC (0 + y) (2 * c + y))).
      apply shift in L. eapply rint_eq; [apply is_RInt_ext with (2 := L)|].
      - intros s _. req. replace (K * s) with (K * (s + y) - K * y) by ring. rewrite sin_minus. ring.
      - req. rewrite Rplus_0_l. ring. }
    assert (B : is_RInt (fun s => sin (K * s) * V (s - y)) 0 (2 * c) (cos (K * y) * (Sf (2 * c - y) - Sf y) + sin (K * y) * (Cf (2 * c - y) + Cf y))).
    { assert (L := rlin _ _ (cos (K * y)) (sin (K * y)) _ _ _ _ (iS (0 + - y) (2 * c + - y)) (iC (0 + - y) (2 * c + - y))).
      apply shift in L. eapply rint_eq; [apply is_RInt_ext with (2 := L)|].
      - intros s _. req. replace (K * s) with (K * (s + - y) + K * y) by ring. rewrite sin_plus. unfold Rminus. ring.
      - req. rewrite Rplus_0_l, Sev, Cod. unfold Rminus. ring. }
    assert (D := rlin _ _ 1 (-1) _ _ _ _ A B).
    transitivity (1 * (cos (K * y) * (Sf (2 * c + y) - Sf y) - sin (K * y) * (Cf (2 * c + y) - Cf y)) + -1 * (cos (K * y) * (Sf (2 * c - y) - Sf y) + sin (K * y) * (Cf (2 * c - y) + Cf y))).
    - apply rint_u. apply is_RInt_ext with (2 := D). intros s _. req. ring.
    - rewrite (Stail (2 * c + y)), (Stail (2 * c - y)), (Ctail (2 * c + y)), (Ctail (2 * c - y)), Cparts by lra.
      replace (K * (2 * c + y)) with (2 * (K * c) + K * y) by ring. replace (K * (2 * c - y)) with (2 * (K * c) - K * y) by ring.
      rewrite !cos_plus, !cos_minus, !sin_plus, !sin_minus. req. field. lra.
  Qed.
End Inner.

(** continuity of s, y |-> sin(Ks) g(y) (V(s+y) - V(s-y)) *)
Lemma kernel_cont : forall (V G : R -> R) K, (forall t, continuous V t) -> (forall t, continuous G t) -> cont2 (fun s y => sin (K * s) * (G y * (V (s + y) - V (s - y)))).
Proof.
  intros V G K VC GC u v. apply continuity_2d_pt_filterlim.
  assert (F1 : continuous (fun z : R * R => fst z) (u, v)) by apply continuous_fst. assert (F2 : continuous (fun z : R * R => snd z) (u, v)) by apply continuous_snd.
  apply (continuous_mult (K:=R_AbsRing) (fun z : R * R => sin (K * fst z)) (fun z => G (snd z) * (V (fst z + snd z) - V (fst z - snd z)))).
  - apply (continuous_comp (fun z : R * R => fst z) (fun s => sin (K * s))); auto. apply (ex_derive_continuous (fun t => sin (K * t))). auto_derive; auto.
  - apply (continuous_mult (K:=R_AbsRing) (fun z : R * R => G (snd z))).
    + now apply (continuous_comp (fun z : R * R => snd z) G).
    + apply (continuous_minus (V:=R_NormedModule) (fun z : R * R => V (fst z + snd z)) (fun z => V (fst z - snd z))).
      * apply (continuous_comp (fun z : R * R => fst z + snd z) V); auto. now apply (continuous_plus (V:=R_NormedModule) (fun z : R * R => fst z) (fun z => snd z)).
      * apply (continuous_comp (fun z : R * R => fst z - snd z) V); auto. now apply (continuous_minus (V:=R_NormedModule) (fun z : R * R => fst z) (fun z => snd z)).
Qed.

(** the truncated NFW *)
Definition Vn (c t : R) : R := - / (1 + Rmin (Rabs t) c).
Definition Gn (t : R) : R := / (1 + Rabs t) ^ 2.
Lemma Vn_cont : forall c, 0 < c -> forall t, continuous (Vn c) t.
Proof.
  intros c Hc t. unfold Vn. apply (continuous_opp (V:=R_NormedModule) (fun t => / (1 + Rmin (Rabs t) c))).
  apply (continuous_comp (fun t => 1 + Rmin (Rabs t) c) Rinv).
  - apply (continuous_plus (V:=R_NormedModule) (fun _ => 1)); [apply continuous_const|]. apply (continuous_ext (fun t => (Rabs t + c - Rabs (Rabs t - c)) / 2)).
    + intros x. match goal with |- @eq _ ?a ?b => change (@eq R a b) end. unfold Rmin. destruct (Rle_dec (Rabs x) c); [rewrite (Rabs_left1 (Rabs x - c)) by lra|rewrite (Rabs_pos_eq (Rabs x - c)) by lra]; lra.
    + apply (continuous_mult (K:=R_AbsRing)); [|apply continuous_const]. apply (continuous_minus (V:=R_NormedModule)).
      * apply (continuous_plus (V:=R_NormedModule)); [apply continuous_Rabs|apply continuous_const].
      * apply (continuous_comp (fun t => Rabs t - c) Rabs); [|apply continuous_Rabs]. apply (continuous_minus (V:=R_NormedModule)); [apply continuous_Rabs|apply continuous_const].
  - apply continuous_Rinv. assert (0 <= Rmin (Rabs t) c) by (apply Rmin_glb; [apply Rabs_pos|lra]). lra.
Qed.
Lemma Gn_cont : forall t, continuous Gn t.
Proof.
  intros t. unfold Gn. assert (P := Rabs_pos t). apply (continuous_comp Rabs (fun x => / (1 + x) ^ 2)); [apply continuous_Rabs|].
  apply (ex_derive_continuous (fun x => / (1 + x) ^ 2)). auto_derive. nra.
Qed.
Lemma lam_kernel : forall c s, 0 < c -> 0 < s -> RInt (fun y => Gn y * (Vn c (s + y) - Vn c (s - y))) 0 c = s / (2 * PI) * nfw_l s c.
Proof.
  intros c s Hc Hs. assert (A := nfw_conv c s Hc Hs). unfold self_convolution_truncated in A. cbv zeta in A. apply rint_u. apply is_RInt_ext with (2 := A).
  intros y. rewrite Rmin_left, Rmax_right by lra. intros Hy. req. rewrite nfw_integrand by lra. unfold Gn, Vn. rewrite (Rabs_pos_eq y), (Rabs_pos_eq (s + y)) by lra. ring.
Qed.
Lemma lam_transform : forall Si Ci c K, sine_cosine_integrals Si Ci -> 0 < c -> 0 < K ->
  is_RInt (fun s => s * nfw_l s c * (sin (K * s) / K)) 0 (2 * c) (4 * PI * nfw_p Si Ci K c ^ 2).
Proof.
  intros Si Ci c K HS Hc HK. assert (PP := PI_RGT_0). set (p := nfw_p Si Ci K c).
  assert (HM : is_RInt (fun t => sin (K * t) * Gn t) 0 c (K * p)).
  { assert (A := nfw_sine Si Ci HS K c HK ltac:(lra)). unfold sine_transform in A. apply (is_RInt_scal (V:=R_NormedModule) _ _ _ K) in A.
    eapply rext; [lra| |exact A]. intros t Ht. unfold scal; simpl. unfold mult; simpl. unfold Gn, nfw_f. rewrite Rabs_pos_eq by lra. field. lra. }
  assert (I : forall y, 0 <= y <= c -> RInt (fun s => sin (K * s) * (Vn c (s + y) - Vn c (s - y))) 0 (2 * c) = 2 * sin (K * y) * (K * p) / K).
  { apply (inner_transform (Vn c) (fun t => - / (1 + t)) Gn c K (K * p)); auto.
    - now apply Vn_cont.
    - intros t. unfold Vn. now rewrite Rabs_Ropp.
    - intros t Ht. unfold Vn. rewrite (Rabs_pos_eq t), (Rabs_pos_eq c), (Rmin_right t), (Rmin_right c) by lra. reflexivity.
    - intros t Ht. unfold Vn. rewrite Rabs_pos_eq, Rmin_left by lra. reflexivity.
    - intros t Ht. unfold Gn. rewrite Rabs_pos_eq by lra. auto_derive; [lra|]. field. lra.
    - intros; apply Gn_cont. }
  assert (F := fubini _ (2 * c) c ltac:(lra) ltac:(lra) (kernel_cont (Vn c) Gn K (Vn_cont c Hc) Gn_cont)).
  rewrite (RInt_ext _ (fun y => 2 * p * (sin (K * y) * Gn y))) in F.
  2:{ intros y. rewrite Rmin_left, Rmax_right by lra. intros Hy. req. 
      rewrite (RInt_ext _ (fun s => Gn y * (sin (K * s) * (Vn c (s + y) - Vn c (s - y))))) by (intros; req; ring).
      rewrite RInt_mult_l. - rewrite I by lra. field. lra.
      - apply ex_cont. intros t. apply (continuous_mult (K:=R_AbsRing)); [apply (ex_derive_continuous (fun t => sin (K * t))); auto_derive; auto|].
        apply (continuous_minus (V:=R_NormedModule)); [apply (continuous_comp (fun t => t + y) (Vn c))|apply (continuous_comp (fun t => t - y) (Vn c))]; try (now apply Vn_cont).
        + apply (ex_derive_continuous (fun t => t + y)). auto_derive; auto.
        + apply (ex_derive_continuous (fun t => t - y)). auto_derive; auto. }
  rewrite RInt_mult_l in F by (eexists; exact HM). rewrite (rint_u _ _ _ _ HM) in F.
  apply (is_RInt_scal (V:=R_NormedModule) _ _ _ (2 * PI / K)) in F. unfold scal in F; simpl in F; unfold mult in F; simpl in F.
  eapply rint_eq; [eapply rext; [lra| |exact F]|].
  - intros s Hs. cbv beta. 
    rewrite RInt_mult_l. + rewrite lam_kernel by lra. field. split; lra.
    + apply ex_cont. intros t. apply (continuous_mult (K:=R_AbsRing)); [apply Gn_cont|].
      apply (continuous_minus (V:=R_NormedModule)); [apply (continuous_comp (fun t => s + t) (Vn c))|apply (continuous_comp (fun t => s - t) (Vn c))]; try (now apply Vn_cont).
      * apply (ex_derive_continuous (fun t => s + t)). auto_derive; auto.
      * apply (ex_derive_continuous (fun t => s - t)). auto_derive; auto.
  - req. field. lra.
Qed.
