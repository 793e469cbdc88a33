(** C119: the half-mode mass in the concentrations of a WDM framework.  Code under study: wdm.py:18-43, 118-138, halo_model.py:1081-1140. *)
From Coq Require Import Reals Bool Arith Lia Lra.
From Verif Require Import Model.RBool Model.Concentration Model.WDMRelation.
Local Open Scope R_scope.

(** the concentration of a rescaled relation for half-mode mass M, written out *)
Definition rescaled_cm (base : R -> R -> R) (M m z : R) : R := base m z * (Rpower (1 + 60 * M / m) (Ropp 0.17) * Rpower (1 + z) (0.026 * z - 0.04)).
Lemma cm_is : forall k M m z, k_rescaled k = true -> rel_cm (mkRel k M) m z = rescaled_cm (k_base k) M m z.
Proof. intros k M m z H. unfold rel_cm. simpl. rewrite H. unfold wdm_cm, rescaled_cm. rewrite Rmult_assoc. reflexivity. Qed.
(** the haloes use the half-mode mass of the WDM model, also when the parameters name another one; relations that are not rescaled have none *)
Theorem c119_halo_scale : forall k p w m z, rel_cm (halo_concentration k p w) m z = if k_rescaled k then rescaled_cm (k_base k) w m z else k_base k m z.
Proof. intros k p w m z. destruct (k_rescaled k) eqn:E; unfold halo_concentration; rewrite E; [now apply cm_is|]. unfold rel_cm. simpl. now rewrite E. Qed.
(** a tracer without a relation of its own has the haloes' *)
Theorem c119_tracer_default : forall k p tp w m z, rel_cm (tracer_concentration k p None tp w) m z = rel_cm (halo_concentration k p w) m z.
Proof. reflexivity. Qed.
Lemma rescaled_inj : forall base M M' m z, base m z <> 0 -> 0 <= M -> 0 <= M' -> 0 < m -> 0 <= z -> (rescaled_cm base M m z = rescaled_cm base M' m z <-> M = M').
Proof.
  intros base M M' m z B A A' H Z. split; [|now intros ->]. unfold rescaled_cm. intros E. apply Rmult_eq_reg_l in E; auto. assert (P : 0 < Rpower (1 + z) (0.026 * z - 0.04)) by apply exp_pos. apply Rmult_eq_reg_r in E; [|lra].
  assert (S : forall a b, 0 <= a -> a < b -> Rpower (1 + 60 * b / m) (Ropp 0.17) < Rpower (1 + 60 * a / m) (Ropp 0.17)).
  { intros a b A0 AB. assert (Q : 0 <= 60 * a / m) by (apply Rmult_le_pos; [lra|left; now apply Rinv_0_lt_compat]). assert (Q2 : 60 * a / m < 60 * b / m) by (apply Rmult_lt_compat_r; [now apply Rinv_0_lt_compat|lra]).
    unfold Rpower. apply exp_increasing. assert (ln (1 + 60 * a / m) < ln (1 + 60 * b / m)) by (apply ln_increasing; lra). lra. }
  destruct (Rtotal_order M M') as [D|[D|D]]; auto; [assert (X := S M M' A D)|assert (X := S M' M A' D)]; lra.
Qed.
(** finding: a tracer with a rescaled relation of its own never sees the WDM model: it uses the m_hm of its parameters, or 1000, so that a tracer
    given the very relation of the haloes has other concentrations than they have - at every mass and redshift - unless m_hm happens to agree *)
Theorem c119_tracer_own_relation : forall k p t tp w m z, k_rescaled t = true -> (tp = None -> p = None \/ k_id t <> k_id k) ->
  rel_cm (tracer_concentration k p (Some t) tp w) m z = rescaled_cm (k_base t) (match tp with Some M => M | None => 1000 end) m z.
Proof.
  intros k p t tp w m z R H. unfold tracer_concentration. destruct tp as [M|]; [apply cm_is; auto|]. destruct (Nat.eqb (k_id t) (k_id k)) eqn:E; [|now apply cm_is]. apply Nat.eqb_eq in E. destruct (H eq_refl) as [->|D]; [now apply cm_is|contradiction].
Qed.
Theorem c119_same_relation_refuted : forall k w m z, k_rescaled k = true -> k_base k m z <> 0 -> 0 <= w -> 0 < m -> 0 <= z ->
  (rel_cm (tracer_concentration k None (Some k) None w) m z = rel_cm (halo_concentration k None w) m z <-> w = 1000).
Proof.
  intros k w m z R B W M Z. rewrite c119_tracer_own_relation, c119_halo_scale, R by auto. rewrite rescaled_inj by (auto; lra). split; auto.
Qed.
(** handing m_hm over in the concentration parameters makes them agree when it is the model's value *)
Theorem c119_repaired_by_parameter : forall k t p w m z, k_rescaled k = true -> k_rescaled t = true -> k_base t = k_base k -> 
  rel_cm (tracer_concentration k p (Some t) (Some w) w) m z = rel_cm (halo_concentration k p w) m z.
Proof. intros k t p w m z R R' B. rewrite c119_tracer_own_relation by (auto; discriminate). rewrite c119_halo_scale, R, B. reflexivity. Qed.
Print Assumptions c119_same_relation_refuted.
Example c119_nonvacuous : let k := mkCm 0 true (fun _ _ => 5) in k_rescaled k = true /\ k_base k 1e12 0 <> 0 /\ rel_cm (tracer_concentration k None (Some k) None 1e9) 1e12 0 <> rel_cm (halo_concentration k None 1e9) 1e12 0.
Proof. intros k. assert (B : k_base k 1e12 0 <> 0) by (simpl; lra). repeat split; auto. intros E. apply c119_same_relation_refuted in E; auto; lra. Qed.
