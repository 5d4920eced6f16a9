(** Text fed in pieces. *)
From Coq Require Import List ZArith Bool Arith Lia.
From Verif Require Import Base CharSet Source Dst Pattern Parser Session SpecSession SpecRun SpecValue.
From Verif Require Import SessionThms LocalThms Unary.
Import ListNotations.

Theorem pieces env p t v l r v' k : complete l ->
  (delivers env p t v l r v' k <-> exists s, does env p t v (fed l) r s v' k).
Proof.
  intros Hl. unfold delivers. rewrite (cutting env t v p l Hl (Done (r, [v'], rev k))). split.
  - intros [_ [n Hn]]. specialize (Hn n (le_n n)). unfold parse_seen in Hn.
    destruct (parse env n t v p (fed l)) as [[r0 w]|] eqn:E; [|discriminate]. injection Hn as -> E1 E2. exists (left_at w), n, w. auto.
  - intros (s & H). apply does_more in H. destruct H as (n & w & Hn & A & B & D). split; [discriminate|]. exists n. intros m Hm.
    unfold parse_seen. rewrite (Hn m Hm), B, D. reflexivity.
Qed.

Theorem act_pieces env : all_unbound env -> forall a q, unbound q = true -> forall t v l r v' k, complete l ->
  delivers env (Act a q) t v l r v' k <->
  (r = FAILURE /\ v' = v /\ exists x, delivers env q (ac_land a) (default_init (ac_land a)) l FAILURE x k) \/
  (r = SUCCESS /\ exists y x k1, delivers env q (ac_land a) (default_init (ac_land a)) l SUCCESS y k1 /\
     conv (ac_land a) y = Done x /\ called a t v x v' /\ k = k1 ++ [Event (ac_id a) x]).
Proof.
  intros He a q Hq t v l r v' k Hl. rewrite pieces by auto. split.
  - intros (s & H). apply does_act in H; auto. destruct H as [(-> & -> & x & H)|(-> & y & x & k1 & H & A & B & D)].
    + left. split; auto. split; auto. exists x. apply pieces; eauto.
    + right. split; auto. exists y, x, k1. split; [apply pieces; eauto|auto].
  - intros [(-> & -> & x & H)|(-> & y & x & k1 & H & A & B & D)]; apply pieces in H; auto; destruct H as (s & H); exists s; apply does_act; auto.
    + left. eauto.
    + right. split; auto. exists y, x, k1. auto.
Qed.
