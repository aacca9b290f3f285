(** Two lists of reals with the same power sums have the same non-zero elements: every
    function vanishing at 0 has the same sum over both. *)
From Coq Require Import Reals Lra List Lia.
Import ListNotations.
Open Scope R_scope.

Definition sumof (f : R -> R) (l : list R) : R := fold_right Rplus 0 (map f l).
Lemma sumof_add f g l : sumof (fun x => f x + g x) l = sumof f l + sumof g l.
Proof. unfold sumof. induction l as [|x l IH]; cbn; [lra|]. rewrite IH. lra. Qed.
Lemma sumof_scale a f l : sumof (fun x => a * f x) l = a * sumof f l.
Proof. unfold sumof. induction l as [|x l IH]; cbn; [lra|]. rewrite IH. lra. Qed.
Lemma sumof_ext f g l : (forall x, In x l -> f x = g x) -> sumof f l = sumof g l.
Proof. intros H. unfold sumof. f_equal. apply map_ext_in, H. Qed.

Section Two.
Variables L M : list R.
Hypothesis POW : forall k, sumof (fun x => x ^ S k) L = sumof (fun x => x ^ S k) M.
Definition good (q : R -> R) : Prop := forall k, sumof (fun x => x ^ k * q x) L = sumof (fun x => x ^ k * q x) M.
Lemma good_ext q q' : (forall x, q x = q' x) -> good q -> good q'.
Proof. intros E G k. rewrite <- (sumof_ext (fun x => x ^ k * q x)), <- (sumof_ext (fun x => x ^ k * q x) (fun x => x ^ k * q' x)) by (intros; rewrite E; reflexivity). apply G. Qed.
Lemma good_id : good (fun x => x).
Proof. intros k. rewrite (sumof_ext _ (fun x => x ^ S k)), (sumof_ext _ (fun x => x ^ S k) M) by (intros; cbn; ring). apply POW. Qed.
Lemma good_add p q : good p -> good q -> good (fun x => p x + q x).
Proof.
  intros P Q k. rewrite (sumof_ext _ (fun x => x ^ k * p x + x ^ k * q x)), (sumof_ext _ (fun x => x ^ k * p x + x ^ k * q x) M) by (intros; ring).
  rewrite !sumof_add, P, Q. reflexivity.
Qed.
Lemma good_scale a q : good q -> good (fun x => a * q x).
Proof.
  intros Q k. rewrite (sumof_ext _ (fun x => a * (x ^ k * q x))), (sumof_ext _ (fun x => a * (x ^ k * q x)) M) by (intros; ring).
  rewrite !sumof_scale, Q. reflexivity.
Qed.
Lemma good_root a q : good q -> good (fun x => (x - a) * q x).
Proof.
  intros Q k. rewrite (sumof_ext _ (fun x => x ^ S k * q x + (- a) * (x ^ k * q x))), (sumof_ext _ (fun x => x ^ S k * q x + (- a) * (x ^ k * q x)) M) by (intros; cbn; ring).
  rewrite !sumof_add, !sumof_scale, !Q. reflexivity.
Qed.
Definition wall (xs : list R) (x : R) : R := fold_right (fun a r => (x - a) * r) x xs.
Lemma wall_good xs : good (wall xs).
Proof. induction xs as [|a xs IH]; [exact good_id|]. apply (good_ext (fun x => (x - a) * wall xs x)); [reflexivity|]. apply good_root, IH. Qed.
Lemma wall_zero xs x : x = 0 \/ In x xs -> wall xs x = 0.
Proof.
  induction xs as [|a xs IH]; intros H.
  - destruct H as [->|[]]. reflexivity.
  - change (wall (a :: xs) x) with ((x - a) * wall xs x). destruct H as [->|[->|H]]; [rewrite IH by auto; ring|ring|rewrite IH by auto; ring].
Qed.
Lemma wall_nonzero xs x : x <> 0 -> ~ In x xs -> wall xs x <> 0.
Proof. induction xs as [|a xs IH]; intros Hx HI; [exact Hx|]. change (wall (a :: xs) x) with ((x - a) * wall xs x). cbn in HI. apply Rmult_integral_contrapositive. split; [intros E; apply HI; left; lra|apply IH; [exact Hx|tauto]]. Qed.
Lemma interpolate f : forall xs, NoDup xs -> (forall x, In x xs -> x <> 0) -> exists q, good q /\ q 0 = 0 /\ forall x, In x xs -> q x = f x.
Proof.
  induction xs as [|y xs IH]; intros ND NZ.
  - exists (fun x => x). split; [exact good_id|]. split; [reflexivity|]. intros x [].
  - apply NoDup_cons_iff in ND. destruct ND as [NI ND]. destruct (IH ND) as (q & G & Z & V); [intros; apply NZ; right; assumption|].
    assert (W : wall xs y <> 0) by (apply wall_nonzero; [apply NZ; left; reflexivity|exact NI]).
    exists (fun x => q x + (f y - q y) / wall xs y * wall xs x). split; [apply good_add; [exact G|apply good_scale, wall_good]|].
    split; [rewrite Z, (wall_zero xs 0) by auto; ring|]. intros x [<-|Hx]; [field; exact W|]. rewrite (V x Hx), (wall_zero xs x) by auto. ring.
Qed.
Theorem same_sums f : f 0 = 0 -> sumof f L = sumof f M.
Proof.
  intros F0. set (xs := nodup Req_EM_T (filter (fun x => if Req_EM_T x 0 then false else true) (L ++ M))).
  destruct (interpolate f xs) as (q & G & Z & V).
  - apply NoDup_nodup.
  - intros x Hx. apply nodup_In, filter_In in Hx. destruct Hx as [_ Hx]. destruct (Req_EM_T x 0); [discriminate|assumption].
  - assert (E : forall x, In x (L ++ M) -> f x = q x).
    { intros x Hx. destruct (Req_EM_T x 0) as [->|N]; [rewrite F0, Z; reflexivity|]. symmetry. apply V. apply nodup_In, filter_In. split; [exact Hx|]. destruct (Req_EM_T x 0); [contradiction|reflexivity]. }
    specialize (G O). rewrite (sumof_ext f (fun x => x ^ 0 * q x) L), (sumof_ext f (fun x => x ^ 0 * q x) M); [exact G| |]; intros x Hx; rewrite E by (apply in_or_app; auto); cbn; ring.
Qed.
End Two.
