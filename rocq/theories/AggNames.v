(** The names of the generated cuts. *)
From Coq Require Import String DecimalString List ZArith Bool Lia.
From Verif Require Import Outcome Num Double SparseVector CutsData Aggregation.
Import ListNotations.
Open Scope Z_scope.

Section Names.
Context {A : Arith} (V : view A).

Definition named (ks : list rounder) (n : nat) (c : raw_cut A) : Prop :=
  exists pre k post j, ks = pre ++ k :: post /\ (n <= j <= n + length pre)%nat /\
    c_name c = (rounder_name k ++ NilEmpty.string_of_uint (Nat.to_uint j))%string.

Lemma named_skip k ks n m c : (n <= m <= S n)%nat -> named ks m c -> named (k :: ks) n c.
Proof.
  intros H (pre & k' & post & j & -> & L & E). exists (k :: pre), k', post, j. split; [reflexivity|].
  cbn [length]. split; [lia|exact E].
Qed.

Lemma round_loop_names ks : forall g x n acc acc', round_loop V ks g x n acc = Ok acc' ->
  forall c, In c acc' -> In c acc \/ named ks n c.
Proof.
  induction ks as [|k ks IH]; intros g x n acc acc' H c Hc; cbn [round_loop] in H; [injection H as <-; auto|].
  destruct (round_with V k g) as [[g1|]| | | |]; try discriminate; cbn [bind] in H.
  2: { destruct (IH _ _ _ _ _ H c Hc) as [I|N]; auto. right. apply (named_skip k ks n n); auto. }
  destruct (TransformBack V g1) as [[b ok]| | | |]; try discriminate. cbn [bind fst snd] in H.
  destruct ok; cbn [negb] in H; [|discriminate].
  destruct (SubstituteSlack V b) as [g2| | | |]; try discriminate. cbn [bind] in H.
  destruct (RemovesLPOptimum _ _ _); cbn [negb] in H.
  - destruct (IH _ _ _ _ _ H c Hc) as [I|N].
    + apply in_app_iff in I as [I|[<-|[]]]; auto. right. exists [], k, ks, n. split; [reflexivity|]. cbn [length]. split; [lia|reflexivity].
    + right. apply (named_skip k ks n (S n)); auto.
  - destruct (IH _ _ _ _ _ H c Hc) as [I|N]; auto. right. apply (named_skip k ks n n); auto.
Qed.

Lemma row_names ks sides x r acc acc' : tableau_row V ks sides x r acc = Ok acc' ->
  forall c, In c acc' -> In c acc \/ named ks 0 c.
Proof.
  unfold tableau_row. intros H c Hc. destruct (at_ (basis V) r) as [j| | | |]; try discriminate. cbn [bind] in H.
  destruct (j =? -1); [injection H as <-; auto|]. destruct (is_int V j); cbn [negb] in H; [|injection H as <-; auto].
  destruct (near V _); [injection H as <-; auto|].
  destruct (binv_row V r) as [b| | | |]; try discriminate. cbn [bind] in H.
  destruct (AggregateByWeight V _ _) as [g| | | |]; try discriminate. cbn [bind] in H.
  destruct (TransformToNonNegative V g) as [[t ok]| | | |]; try discriminate. cbn [bind fst snd] in H.
  destruct ok; cbn [negb] in H; [|injection H as <-; auto]. exact (round_loop_names _ _ _ _ _ _ H c Hc).
Qed.

Lemma loop_names ks sides x limit m : forall r acc acc', gen_loop V m ks sides x limit r acc = Ok acc' ->
  forall c, In c acc' -> In c acc \/ named ks 0 c.
Proof.
  induction m as [|m IH]; intros r acc acc' H c Hc; cbn [gen_loop] in H; [injection H as <-; auto|].
  destruct (size_lt _ _); cbn [negb] in H; [|injection H as <-; auto].
  destruct (tableau_row V ks sides x r acc) as [a| | | |] eqn:T; try discriminate. cbn [bind] in H.
  destruct (IH _ _ _ H c Hc) as [I|N]; auto. exact (row_names _ _ _ _ _ _ T c I).
Qed.

Lemma generate_names mir scg limit cuts : Generate V (make_rounders mir scg) limit = Ok cuts ->
  forall c, In c cuts -> (mir = true /\ c_name c = "MIR0"%string) \/
    (scg = true /\ (c_name c = "SCG0"%string \/ (mir = true /\ c_name c = "SCG1"%string))).
Proof.
  intros H c Hc. assert (N : named (make_rounders mir scg) 0 c).
  { unfold Generate in H. destruct (is_solved V); cbn [negb] in H; [|discriminate].
    destruct (is_optimal V); cbn [negb] in H; [|discriminate].
    destruct (activities V) as [a| | | |]; try discriminate. cbn [bind] in H.
    destruct (choose_sides V 0 a) as [sd| | | |]; try discriminate. cbn [bind] in H.
    destruct (primal V) as [xs| | | |]; try discriminate. cbn [bind] in H.
    destruct (limit <? 0); [discriminate|]. destruct (loop_names _ _ _ _ _ _ _ _ H c Hc) as [[]|N]; exact N. }
  destruct N as (pre & k & post & j & E & L & ->).
  destruct mir, scg; cbn [make_rounders app] in E.
  - destruct pre as [|k1 pre]; [injection E as <- _; assert (j = 0%nat) by (cbn in L; lia); subst j; left; split; reflexivity|].
    injection E as _ E. destruct pre as [|k2 pre].
    + injection E as <- _. cbn [length] in L. right. split; [reflexivity|].
      destruct j as [|[|j]]; [left; reflexivity|right; split; reflexivity|lia].
    + exfalso. injection E as _ E. destruct pre; discriminate E.
  - destruct pre as [|k1 pre]; [injection E as <- _; assert (j = 0%nat) by (cbn in L; lia); subst j; left; split; reflexivity|].
    exfalso. injection E as _ E. destruct pre; discriminate E.
  - destruct pre as [|k1 pre]; [injection E as <- _; assert (j = 0%nat) by (cbn in L; lia); subst j; right; split; [reflexivity|left; reflexivity]|].
    exfalso. injection E as _ E. destruct pre; discriminate E.
  - exfalso. destruct pre; discriminate E.
Qed.
End Names.
