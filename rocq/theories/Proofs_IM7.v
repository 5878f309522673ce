(** Inductive Miner: the projections on the sequence and loop cuts. *)
From Coq Require Import List Arith Bool ZArith Lia Permutation Sorting.Sorted.
Import ListNotations.
From Verif Require Import Model_Dict Model_Dfg Model_Graph Model_Lev Model_Tree Model_IM Spec_Tree.
From Verif Require Import Proofs_Dict Proofs_Dfg Proofs_Graph Proofs_Shuffle Proofs_IM1 Proofs_IM4 Proofs_IM6.
Local Open Scope nat_scope.
Local Arguments keqb {K Key} : simpl never.
Local Arguments Nat.ltb : simpl never.
Local Arguments Nat.leb : simpl never.
Local Arguments Nat.eqb : simpl never.

(** ** Sequence *)
Lemma split_loop_in g ig t : forall post i cost least pos, (least = cost)%Z -> pos = i -> incl t g -> (forall x, In x post -> ~ In x g /\ ~ In x ig) ->
  split_loop g ig (t ++ post) i cost least pos = i + length t.
Proof.
  induction t as [|e t IH]; intros post i cost least pos Hl Hp Ht Hpost; cbn [app length].
  - rewrite Nat.add_0_r. subst. assert (G : forall post i cost least, (least <= cost)%Z -> (forall x, In x post -> ~ In x g /\ ~ In x ig) -> forall pos, split_loop g ig post i cost least pos = pos).
    { clear. induction post as [|e post IH]; intros i cost least H Hp pos; cbn [split_loop]; auto. destruct (Hp e ltac:(left; auto)) as [N1 N2].
      rewrite (proj2 (smem_false e g) N1), (proj2 (smem_false e ig) N2). destruct (Z.ltb_spec (cost + 1) least) as [L|L]; [lia|]. apply IH; [lia|]. intros; apply Hp; right; auto. }
    apply G; auto. lia.
  - cbn [split_loop]. rewrite (proj2 (smem_in e g)) by (apply Ht; left; auto). destruct (Z.ltb_spec (cost - 1) least) as [L|L]; [|lia].
    rewrite IH; auto; [lia|intros x Hx; apply Ht; right; auto].
Qed.
Lemma find_split_spec pre mid post g ig : incl mid g -> (forall x, In x post -> ~ In x g /\ ~ In x ig) ->
  find_split_point (pre ++ mid ++ post) g (length pre) ig = length pre + length mid.
Proof. intros H1 H2. unfold find_split_point. rewrite skipn_app, skipn_all, Nat.sub_diag. cbn [app skipn]. apply split_loop_in; auto. Qed.
Lemma slice_mid (pre mid post : list nat) : slice (pre ++ mid ++ post) (length pre) (length pre + length mid) = mid.
Proof. unfold slice. rewrite skipn_app, skipn_all, Nat.sub_diag. cbn [app skipn]. replace (length pre + length mid - length pre) with (length mid) by lia. rewrite firstn_app, firstn_all, Nat.sub_diag. cbn. apply app_nil_r. Qed.
(** splitting a trace along parts that lie in the successive groups *)
Lemma seq_split_parts gs : forall pre (ps : list trace) ig, NoDup (concat gs) -> (forall x, In x ig -> ~ In x (concat gs)) -> Forall2 (fun p g => incl p g) ps gs ->
  seq_split (pre ++ concat ps) gs (length pre) ig = ps.
Proof.
  induction gs as [|g gs IH]; intros pre ps ig N Hig H; inversion H as [|p ? ps' ? Hp Hps]; subst; auto. cbn [seq_split concat].
  assert (Hpost : forall x, In x (concat ps') -> In x (concat gs)).
  { clear - Hps. induction Hps as [|p g ps gs Hp H IH]; intros x Hx; auto. cbn in *. apply in_app_or in Hx. apply in_or_app. destruct Hx; auto. }
  cbn [concat] in N. rewrite find_split_spec; auto.
  2:{ intros x Hx. apply Hpost in Hx. split; intros Q; [apply (NoDup_app_disj _ _ x N); auto|apply (Hig x Q); apply in_or_app; auto]. }
  rewrite slice_mid, proj_all by auto. f_equal. rewrite app_assoc, <- app_length. apply IH; auto; [eapply NoDup_app_r; eauto|].
  intros x Hx Hy. apply sunion_in in Hx. destruct Hx as [Hx|Hx]; [apply (Hig x Hx), in_or_app; auto|apply (NoDup_app_disj _ _ x N); auto].
Qed.
(** a trace without steps back splits into such parts *)
Lemma split_first (g : group) (t : trace) : (forall pre x y post, t = pre ++ x :: y :: post -> In y g -> In x g) -> exists p q, t = p ++ q /\ incl p g /\ forall x, In x q -> ~ In x g.
Proof.
  induction t as [|e t IH]; intros H.
  - exists [], []. repeat split; auto; intros ? [].
  - destruct IH as (p & q & E & Hp & Hq). { intros pre x y post Et. apply (H (e :: pre) x y post). rewrite Et; auto. }
    destruct p as [|y p].
    + destruct (in_dec Nat.eq_dec e g) as [I|I].
      * exists [e], t. split; auto. split; [intros x [<-|[]]; auto|]. cbn [app] in E. subst t. exact Hq.
      * exists [], (e :: t). split; auto. split; [intros ? []|]. intros x [<-|Hx]; auto. apply Hq. cbn [app] in E. subst t. auto.
    + exists (e :: y :: p), q. split; [rewrite E; auto|]. split; auto. intros x [<-|Hx]; auto. apply (H [] e y (p ++ q)); [rewrite E; auto|]. apply Hp. left; auto.
Qed.
Lemma monotone_parts (E : list edge) gs : NoDup (concat gs) -> StronglySorted (forward E) gs -> forall t, (forall x y, In (x, y) (adj t) -> In (x, y) E) -> incl t (concat gs) ->
  exists ps, t = concat ps /\ Forall2 (fun p g => incl p g) ps gs.
Proof.
  induction gs as [|g gs IH]; intros N H t Ht Hi.
  - destruct t as [|x t]; [exists []; auto|]. destruct (Hi x ltac:(left; auto)).
  - inversion H as [|? ? S F]; subst. cbn [concat] in *.
    destruct (split_first g t) as (p & q & -> & Hp & Hq).
    { intros pre x y post Et Hy. assert (Hx : In x (g ++ concat gs)) by (apply Hi; rewrite Et; apply in_or_app; right; left; auto). apply in_app_or in Hx. destruct Hx as [Hx|Hx]; auto. exfalso.
      apply in_concat in Hx. destruct Hx as (h & Hh & Hx). apply (proj1 (Forall_forall _ _) F h Hh x y Hx Hy). apply Ht. rewrite Et. clear. induction pre as [|a pre IH]; [left; auto|]. cbn [app]. destruct (pre ++ x :: y :: post) eqn:E0; [destruct pre; discriminate|]. right. exact IH. }
    destruct (IH (NoDup_app_r _ _ N) S q) as (ps & -> & Hps).
    + intros x y Hxy. apply Ht. clear - Hxy. induction p as [|a p IH]; auto. cbn [app]. destruct (p ++ q) eqn:E0; [destruct p; [cbn in E0; subst; destruct Hxy|discriminate]|]. right. exact IH.
    + intros x Hx. assert (Hx' : In x (g ++ concat gs)) by (apply Hi, in_or_app; auto). apply in_app_or in Hx'. destruct Hx' as [Hx'|Hx']; auto. exfalso. apply (Hq x Hx Hx').
    + exists (p :: ps). auto.
Qed.
Section Seq.
  Variables (v : uvcl) (gs : list group).
  Hypothesis Hv : uvcl_ok v.
  Definition seq_part (i : nat) (t : trace) : trace := nth i (seq_split t gs 0 []) [].
  Definition seq_sub (i : nat) : uvcl := fold_left (fun (d : uvcl) tn => c_add d (seq_part i (fst tn)) (snd tn)) v [].
  Lemma seq_sub_keys i k : In k (d_keys (seq_sub i)) <-> exists t, In t (d_keys v) /\ seq_part i t = k.
  Proof. unfold seq_sub. rewrite (fold_adds' (seq_part i)), adds_keys. pose proof (keys_map (seq_part i) v k) as KM. cbn beta in KM. rewrite KM. cbn [d_keys map In]. tauto. Qed.
  Lemma seq_sub_ok i : uvcl_ok (seq_sub i).
  Proof. unfold seq_sub. rewrite (fold_adds' (seq_part i)). apply adds_ok; [apply ok_nil|apply positive_map, Hv]. Qed.
  Lemma seq_split_length gs' : forall t sp ig, length (seq_split t gs' sp ig) = length gs'.
  Proof. induction gs' as [|g l IH]; intros; cbn [seq_split length]; auto. Qed.
  Lemma seq_split_in gs' : forall t sp ig i, incl (nth i (seq_split t gs' sp ig) []) (nth i gs' []).
  Proof. induction gs' as [|g l IH]; intros t sp ig [|i] x Hx; cbn [seq_split nth] in *; auto; [apply proj_in in Hx; tauto|eapply IH; eauto]. Qed.
  Lemma seq_sub_alphabet i : incl (alphabet (seq_sub i)) (nth i gs []).
  Proof. intros x Hx. apply alphabet_iff in Hx. destruct Hx as (k & Hk & Hx). apply seq_sub_keys in Hk. destruct Hk as (t & _ & <-). eapply seq_split_in; eauto. Qed.
  Lemma seq_shrinks : incl (concat gs) (alphabet v) -> NoDup (concat gs) -> nonempties gs -> 2 <= length gs -> shrinks v (seq_project v gs).
  Proof.
    intros H1 H2 H3 H4 s Hs. unfold seq_project in Hs. apply in_map_seq in Hs. destruct Hs as (i & Hi & <-). change (uvcl_ok (seq_sub i) /\ incl (alphabet (seq_sub i)) (alphabet v) /\ length (alphabet (seq_sub i)) < length (alphabet v)).
    split; [apply seq_sub_ok|]. apply (cut_strict v (seq_sub i) gs i); auto. apply seq_sub_alphabet.
  Qed.
  Hypothesis sorted : StronglySorted (forward (edges (discover_dfg_uvcl v))) gs.
  Hypothesis cover : forall x, In x (alphabet v) <-> In x (concat gs).
  Hypothesis disj : NoDup (concat gs).
  Lemma seq_parts t : In t (d_keys v) -> t = concat (seq_split t gs 0 []).
  Proof.
    intros Ht. destruct (monotone_parts (edges (discover_dfg_uvcl v)) gs disj sorted t) as (ps & E & H).
    - intros x y H. apply dfg_edges. eauto.
    - intros x Hx. apply cover, alphabet_iff. eauto.
    - rewrite E at 2. pose proof (seq_split_parts gs [] ps [] disj ltac:(intros ? []) H) as Q. cbn [app length] in Q. rewrite Q. auto.
  Qed.
  Lemma forall2_lang (F : nat -> uvcl) (ws : list trace) ts : (forall i, i < length ws -> In (nth i ws []) (d_keys (F i))) -> Forall2 fits (map F (seq 0 (length ws))) ts -> Forall2 lang ts ws.
  Proof.
    revert F ts. induction ws as [|w ws IH]; intros F ts H1 H2; cbn [length seq map] in H2; inversion H2; subst; constructor.
    - match goal with G : fits (F 0) _ |- _ => apply G end. apply (H1 0). cbn; lia.
    - apply (IH (fun i => F (S i))); [intros i Hi; apply (H1 (S i)); cbn; lia|]. rewrite <- seq_shift, map_map in *. auto.
  Qed.
  Lemma seq_fits ts : v <> [] -> Forall2 fits (seq_project v gs) ts -> fits v (Node Sequence ts).
  Proof.
    intros Nv H. split; [|congruence]. intros t Ht. rewrite (seq_parts t Ht). constructor. apply (forall2_lang seq_sub).
    - intros i Hi. apply seq_sub_keys. exists t. auto.
    - rewrite seq_split_length. exact H.
  Qed.
  Lemma seq_alphabet : Permutation (concat (map alphabet (seq_project v gs))) (alphabet v).
  Proof.
    apply (partition_alphabet v _ gs); auto.
    - apply (forall2_seq _ seq_sub gs []). intros. apply seq_sub_alphabet.
    - intros s Hs x Hx. apply in_map_seq in Hs. destruct Hs as (i & Hi & <-). change (In x (alphabet (seq_sub i))) in Hx. apply seq_sub_alphabet in Hx. apply cover, in_concat_nth. eauto.
    - intros x Hx. apply alphabet_iff in Hx. destruct Hx as (t & Ht & Hx). rewrite (seq_parts t Ht) in Hx. apply in_concat_nth in Hx. destruct Hx as (i & Hi & Hx). rewrite seq_split_length in Hi.
      exists (seq_sub i). split; [apply in_map_seq; eauto|]. apply alphabet_iff. exists (seq_part i t). split; auto. apply seq_sub_keys. eauto.
  Qed.
End Seq.

(** ** Loops *)
(** alternating do and redo parts of a trace *)
Inductive alternate : list trace -> list trace -> trace -> Prop :=
| alt_exit d : alternate [d] [] d
| alt_redo d r ds rs w : alternate ds rs w -> alternate (d :: ds) (r :: rs) (d ++ r ++ w).
Lemma loop_scan_skip do ra t : forall dt rt, loop_scan do ra t dt rt = loop_scan do ra (filter (fun e => smem e do || smem e ra) t) dt rt.
Proof.
  induction t as [|e t IH]; intros dt rt; auto. cbn [loop_scan filter]. destruct (smem e do) eqn:Ed.
  - cbn [orb loop_scan]. rewrite Ed, IH. auto.
  - cbn [orb]. destruct (smem e ra) eqn:Er; [cbn [loop_scan]; rewrite Ed, Er, IH; auto|apply IH].
Qed.
Definition within (do ra : list nat) (ds rs : list trace) : Prop := (forall d x, In d ds -> In x d -> In x do) /\ (forall r x, In r rs -> In x r -> In x ra) /\ (forall r, In r rs -> r <> []).
Lemma loop_scan_alt do ra t : (forall x, In x t -> In x do \/ In x ra) -> (t <> [] -> In (last t 0) do) ->
  (forall d, d <> [] -> incl d do -> exists ds rs, loop_scan do ra t d [] = Some (ds, rs) /\ alternate ds rs (d ++ t) /\ within do ra ds rs) /\
  (forall r, r <> [] -> incl r ra -> t <> [] -> exists ds rs, loop_scan do ra t [] r = Some (ds, rs) /\ within do ra ds rs /\ forall d, alternate (d :: ds) rs (d ++ r ++ t)).
Proof.
  induction t as [|e t IH]; intros H1 H2.
  - split; [|congruence]. intros d Nd Hd. exists [d], []. cbn [loop_scan is_nil]. split; auto. rewrite app_nil_r. split; [constructor|]. split; [|split]; [intros ? x [<-|[]]; auto|intros ? ? []|intros ? []].
  - assert (H1' : forall x, In x t -> In x do \/ In x ra) by (intros; apply H1; right; auto).
    assert (H2' : t <> [] -> In (last t 0) do). { intros N. destruct t; [congruence|]. apply H2. discriminate. }
    destruct (IH H1' H2') as [I1 I2]. clear IH. cbn [loop_scan]. destruct (smem e do) eqn:Ed.
    + pose proof (proj1 (smem_in _ _) Ed) as Ed'. split.
      * intros d Nd Hd. destruct (I1 (d ++ [e])) as (ds & rs & E & A & W); [destruct d; discriminate|intros x Hx; apply in_app_or in Hx; destruct Hx as [Hx|[<-|[]]]; auto|]. rewrite E. cbn [is_nil]. exists ds, rs. split; auto. rewrite <- app_assoc in A. auto.
      * intros r Nr Hr _. cbn [app]. destruct (I1 [e]) as (ds & rs & E & A & W); [discriminate|intros x [<-|[]]; auto|]. rewrite E. exists ds, (r :: rs). split; [destruct r; [congruence|]; auto|].
        split; [destruct W as (W1 & W2 & W3); split; [|split]; auto; [intros r' x [<-|Hr']; eauto|intros r' [<-|Hr']; auto]|]. intros d. change (e :: t) with ([e] ++ t). constructor. auto.
    + assert (Er : In e ra) by (destruct (H1 e ltac:(left; auto)) as [Q|Q]; auto; apply smem_in in Q; congruence). rewrite (proj2 (smem_in e ra) Er).
      assert (Nt : t <> []). { intros ->. assert (Q : In e do) by (apply H2; discriminate). apply smem_in in Q. congruence. }
      split.
      * intros d Nd Hd. cbn [app]. destruct (I2 [e]) as (ds & rs & E & W & A); auto; [discriminate|intros x [<-|[]]; auto|]. rewrite E. exists (d :: ds), rs. split; [destruct d; [congruence|]; auto|].
        split; [apply (A d)|]. destruct W as (W1 & W2 & W3). split; [|split]; auto. intros d' x [<-|Hd']; eauto.
      * intros r Nr Hr _. destruct (I2 (r ++ [e])) as (ds & rs & E & W & A); auto; [destruct r; discriminate|intros x Hx; apply in_app_or in Hx; destruct Hx as [Hx|[<-|[]]]; auto|].
        rewrite E. cbn [is_nil]. exists ds, rs. split; auto. split; auto. intros d. specialize (A d). rewrite <- app_assoc in A. exact A.
Qed.
Lemma last_filter (f : nat -> bool) t : t <> [] -> f (last t 0) = true -> filter f t <> [] /\ last (filter f t) 0 = last t 0.
Proof.
  intros N H. destruct (exists_last N) as (t' & x & ->). rewrite last_last in *. rewrite filter_app. cbn [filter]. rewrite H. rewrite last_last. split; auto. destruct (filter f t'); discriminate.
Qed.
Lemma loop_scan_ok do ra t : t <> [] -> In (hd 0 t) do -> In (last t 0) do ->
  exists ds rs, loop_scan do ra t [] [] = Some (ds, rs) /\ alternate ds rs (filter (fun e => smem e do || smem e ra) t) /\ within do ra ds rs.
Proof.
  intros N H1 H2. rewrite loop_scan_skip. set (f := fun e => smem e do || smem e ra). assert (F2 : f (last t 0) = true) by (unfold f; rewrite (proj2 (smem_in _ _) H2); auto).
  destruct (last_filter f t N F2) as [N' L']. destruct t as [|e t]; [congruence|]. cbn [hd] in H1. assert (F1 : f e = true) by (unfold f; rewrite (proj2 (smem_in _ _) H1); auto).
  cbn [filter] in *. rewrite F1 in *. cbn [loop_scan]. rewrite (proj2 (smem_in _ _) H1). cbn [app is_nil].
  destruct (loop_scan_alt do ra (filter f t)) as [I1 _].
  - intros x Hx. apply filter_In in Hx. destruct Hx as [_ Hx]. unfold f in Hx. apply orb_true_iff in Hx. rewrite !smem_in in Hx. auto.
  - intros Nf. destruct (filter f t) as [|y r] eqn:Ef; [congruence|]. change (last (e :: y :: r) 0) with (last (y :: r) 0) in L'. rewrite L'. auto.
  - destruct (I1 [e]) as (ds & rs & E & A & W); [discriminate|intros x [<-|[]]; auto|]. exists ds, rs. rewrite E. auto.
Qed.
Lemma alternate_in ds rs w : alternate ds rs w -> forall x, In x w -> exists p, (In p ds \/ In p rs) /\ In x p.
Proof.
  induction 1 as [d|d r ds rs w H IH]; intros x Hx.
  - exists d. split; auto. left; left; auto.
  - apply in_app_or in Hx. destruct Hx as [Hx|Hx]; [exists d; split; auto; left; left; auto|]. apply in_app_or in Hx. destruct Hx as [Hx|Hx]; [exists r; split; auto; right; left; auto|].
    destruct (IH x Hx) as (p & [Hp|Hp] & Hxp); exists p; split; auto; [left; right; auto|right; right; auto].
Qed.
Lemma alternate_sub ds rs w : alternate ds rs w -> forall r, In r rs -> exists pre post, w = pre ++ r ++ post.
Proof.
  induction 1 as [d|d r ds rs w H IH]; intros p Hp; [destruct Hp|]. destruct Hp as [<-|Hp]; [exists d, w; auto|]. destruct (IH p Hp) as (pre & post & ->). exists (d ++ r ++ pre), post. rewrite <- !app_assoc. auto.
Qed.
Lemma adj_sub pre r post x y : In (x, y) (adj r) -> In (x, y) (adj (pre ++ r ++ post)).
Proof.
  intros H. induction pre as [|a pre IH].
  - cbn [app]. induction r as [|a r IH]; [destruct H|]. destruct r as [|b r]; [destruct H|]. destruct H as [H|H]; [left; auto|]. right. apply IH. exact H.
  - cbn [app]. destruct (pre ++ r ++ post) as [|b u]; [destruct IH|]. right. exact IH.
Qed.
Lemma alternate_lang d rs' ds rs w : alternate ds rs w -> (forall p, In p ds -> lang d p) -> (forall p, In p rs -> exists r, In r rs' /\ lang r p) -> lang (Node Loop (d :: rs')) w.
Proof.
  induction 1 as [p|p q ds rs w H IH]; intros H1 H2.
  - apply L_loop_exit, H1. left; auto.
  - destruct (H2 q ltac:(left; auto)) as (r & Hr & Lr). apply (L_loop_redo d rs' r); auto; [apply H1; left; auto|]. apply IH; intros; [apply H1|apply H2]; right; auto.
Qed.
Lemma map_opt_all {X Y} (f : X -> option Y) (l : list X) : (forall x, In x l -> exists y, f x = Some y) -> exists k, map_opt f l = Some k /\ Forall2 (fun x y => f x = Some y) l k.
Proof.
  induction l as [|x l IH]; intros H; cbn [map_opt]; [exists []; auto|]. destruct (H x ltac:(left; auto)) as (y & E). destruct IH as (k & E' & F); [intros; apply H; right; auto|]. rewrite E, E'. exists (y :: k). auto.
Qed.
Lemma in_pos {X} (l : list X) x : In x l -> 0 < length l.
Proof. destruct l; [intros []|cbn; lia]. Qed.
Lemma pos_in {X} (l : list X) : 0 < length l -> exists x, In x l.
Proof. destruct l as [|x l]; [cbn; lia|exists x; left; auto]. Qed.
Section Loop.
  Variables (v : uvcl) (do : group) (redo : list group).
  Hypothesis Hv : uvcl_ok v.
  Hypothesis no_empty : ~ In [] (d_keys v).
  Hypothesis Hs : forall t, In t (d_keys v) -> In (hd 0 t) do /\ In (last t 0) do.
  Let gs := do :: redo.
  Definition part := ((list trace * list trace) * nat)%type.
  Lemma loop_parts : exists parts : list part,
    map_opt (fun tn : trace * nat => match loop_scan do (concat redo) (fst tn) [] [] with Some dr => Some (dr, snd tn) | None => None end) v = Some parts /\
    (forall p, In p parts -> exists t, In (t, snd p) v /\ alternate (fst (fst p)) (snd (fst p)) (filter (fun e => smem e do || smem e (concat redo)) t) /\ within do (concat redo) (fst (fst p)) (snd (fst p))) /\
    (forall t, In t (d_keys v) -> exists p, In p parts /\ alternate (fst (fst p)) (snd (fst p)) (filter (fun e => smem e do || smem e (concat redo)) t) /\ within do (concat redo) (fst (fst p)) (snd (fst p))).
  Proof.
    assert (K : forall tn : trace * nat, In tn v -> exists ds rs, loop_scan do (concat redo) (fst tn) [] [] = Some (ds, rs) /\ alternate ds rs (filter (fun e => smem e do || smem e (concat redo)) (fst tn)) /\ within do (concat redo) ds rs).
    { intros [t n] Hin. assert (Hk : In t (d_keys v)) by (apply in_map_iff; exists (t, n); auto). destruct (Hs t Hk) as [A B]. apply loop_scan_ok; auto. cbn. intros ->; auto. }
    destruct (map_opt_all (fun tn : trace * nat => match loop_scan do (concat redo) (fst tn) [] [] with Some dr => Some (dr, snd tn) | None => None end) v) as (parts & E & F).
    { intros tn Hin. destruct (K tn Hin) as (ds & rs & E & _). exists ((ds, rs), snd tn). rewrite E. auto. }
    exists parts. split; auto. clear E. split.
    - intros p Hp. assert (Q : exists tn, In tn v /\ (match loop_scan do (concat redo) (fst tn) [] [] with Some dr => Some (dr, snd tn) | None => None end) = Some p).
      { clear - F Hp. induction F as [|a b l k Hab F IH]; [destruct Hp|]. destruct Hp as [<-|Hp]; [exists a; split; auto; left; auto|]. destruct (IH Hp) as (tn & H1 & H2). exists tn. split; auto. right; auto. }
      destruct Q as ([t n] & Hin & Q). destruct (K _ Hin) as (ds & rs & E & A & W). cbn [fst snd] in *. rewrite E in Q. injection Q as <-. exists t. auto.
    - intros t Ht. apply in_map_iff in Ht. destruct Ht as ([t' n] & <- & Hin). cbn [fst].
      assert (Q : exists p, In p parts /\ (match loop_scan do (concat redo) t' [] [] with Some dr => Some (dr, n) | None => None end) = Some p).
      { clear - F Hin. induction F as [|a b l k Hab F IH]; [destruct Hin|]. destruct Hin as [->|Hin]; [exists b; split; auto; left; auto|]. destruct (IH Hin) as (p & H1 & H2). exists p. split; auto. right; auto. }
      destruct Q as (p & Hp & Q). destruct (K _ Hin) as (ds & rs & E & A & W). cbn [fst snd] in *. rewrite E in Q. injection Q as <-. eexists; split; [exact Hp|]. auto.
  Qed.
  Definition do_log (parts : list part) : uvcl := fold_left (fun d (p : part) => fold_left (fun (d : uvcl) t => c_add d t (snd p)) (fst (fst p)) d) parts [].
  Definition redo_log (parts : list part) (i : nat) : uvcl := fold_left (fun d (p : part) => fold_left (fun (d : uvcl) t =>
            if Nat.eqb (redo_index redo t) i then c_add d t (snd p) else d) (snd (fst p)) d) parts [].
  Lemma nested_adds (sel : part -> list trace) (f : trace -> bool) parts : forall d : uvcl,
    fold_left (fun d (p : part) => fold_left (fun (d : uvcl) t => if f t then c_add d t (snd p) else d) (sel p) d) parts d =
    adds (concat (map (fun p => map (fun t => (t, snd p)) (filter f (sel p))) parts)) d.
  Proof.
    induction parts as [|p parts IH]; intros d; cbn [fold_left map concat]; auto. rewrite IH. unfold adds. rewrite fold_left_app. f_equal.
    generalize (sel p). intros l. revert d. induction l as [|t l IHl]; intros d; cbn [fold_left filter]; auto. destruct (f t); cbn [map fold_left fst snd]; rewrite IHl; auto.
  Qed.
  Lemma nested_keys (sel : part -> list trace) (f : trace -> bool) parts k :
    In k (map fst (concat (map (fun p => map (fun t => (t, snd p)) (filter f (sel p))) parts))) <-> exists p, In p parts /\ In k (sel p) /\ f k = true.
  Proof.
    rewrite in_map_iff. split.
    - intros ([t n] & <- & H). apply in_concat in H. destruct H as (l & Hl & H). apply in_map_iff in Hl. destruct Hl as (p & <- & Hp). apply in_map_iff in H. destruct H as (u & [= <- <-] & Hu). apply filter_In in Hu. exists p. cbn. tauto.
    - intros (p & Hp & Hk & Hf). exists (k, snd p). split; auto. apply in_concat. exists (map (fun t => (t, snd p)) (filter f (sel p))). split; [apply in_map_iff; eauto|]. apply in_map_iff. exists k. split; auto. apply filter_In; auto.
  Qed.
  Lemma nested_positive (sel : part -> list trace) (f : trace -> bool) parts : (forall p, In p parts -> 0 < snd p) -> positive (concat (map (fun p => map (fun t => (t, snd p)) (filter f (sel p))) parts)).
  Proof. intros H t n Hin. apply in_concat in Hin. destruct Hin as (l & Hl & Hin). apply in_map_iff in Hl. destruct Hl as (p & <- & Hp). apply in_map_iff in Hin. destruct Hin as (u & [= <- <-] & Hu). auto. Qed.
  Lemma do_log_eq parts : do_log parts = adds (concat (map (fun p : part => map (fun t => (t, snd p)) (filter (fun _ => true) (fst (fst p)))) parts)) [].
  Proof. exact (nested_adds (fun p : part => fst (fst p)) (fun _ => true) parts []). Qed.
  Lemma redo_log_eq parts i : redo_log parts i = adds (concat (map (fun p : part => map (fun t => (t, snd p)) (filter (fun t => Nat.eqb (redo_index redo t) i) (snd (fst p)))) parts)) [].
  Proof. exact (nested_adds (fun p : part => snd (fst p)) (fun t => Nat.eqb (redo_index redo t) i) parts []). Qed.
  Lemma do_log_keys parts k : In k (d_keys (do_log parts)) <-> exists p, In p parts /\ In k (fst (fst p)).
  Proof. rewrite do_log_eq, adds_keys, (nested_keys (fun p : part => fst (fst p)) (fun _ => true)). cbn [d_keys map In]. split; [intros [[]|(p & H)]; exists p; tauto|intros (p & H); right; exists p; tauto]. Qed.
  Lemma redo_log_keys parts i k : In k (d_keys (redo_log parts i)) <-> exists p, In p parts /\ In k (snd (fst p)) /\ redo_index redo k = i.
  Proof. rewrite redo_log_eq, adds_keys, (nested_keys (fun p : part => snd (fst p)) (fun t => Nat.eqb (redo_index redo t) i)). cbn [d_keys map In]. split; [intros [[]|(p & H1 & H2 & H3)]; exists p; apply Nat.eqb_eq in H3; auto|intros (p & H1 & H2 & H3); right; exists p; split; auto; split; auto; apply Nat.eqb_eq; auto]. Qed.
  Lemma loop_shrinks : incl (concat gs) (alphabet v) -> NoDup (concat gs) -> nonempties gs -> 2 <= length gs -> exists subs, loop_project v gs = Some subs /\ shrinks v subs /\ length subs = length gs.
  Proof.
    intros H1 H2 H3 H4. destruct loop_parts as (parts & E & P1 & P2). unfold loop_project, gs. rewrite E.
    exists (do_log parts :: map (redo_log parts) (seq 0 (length redo))). split; auto. split; [|cbn; rewrite map_length, seq_length; auto].
    assert (Pos : forall p, In p parts -> 0 < snd p) by (intros p Hp; destruct (P1 p Hp) as (t & Hin & _); eapply (proj2 Hv); eauto).
    intros s [<-|Hs'].
    - split; [rewrite do_log_eq; apply adds_ok; [apply ok_nil|apply (nested_positive (fun p : part => fst (fst p)) (fun _ => true)); auto]|].
      apply (cut_strict v _ gs 0); auto; [cbn; lia|]. intros x Hx. apply alphabet_iff in Hx. destruct Hx as (k & Hk & Hx). apply do_log_keys in Hk. destruct Hk as (p & Hp & Hk). destruct (P1 p Hp) as (t & _ & _ & W & _). cbn [nth gs]. eapply W; eauto.
    - apply in_map_seq in Hs'. destruct Hs' as (i & Hi & <-).
      split; [rewrite redo_log_eq; apply adds_ok; [apply ok_nil|apply (nested_positive (fun p : part => snd (fst p)) (fun t => Nat.eqb (redo_index redo t) i)); auto]|].
      assert (I : incl (alphabet (redo_log parts i)) (concat redo)).
      { intros x Hx. apply alphabet_iff in Hx. destruct Hx as (k & Hk & Hx). apply redo_log_keys in Hk. destruct Hk as (p & Hp & Hk & _). destruct (P1 p Hp) as (t & _ & _ & _ & W & _). eapply W; eauto. }
      pose proof (Forall_inv H3) as Nd. destruct do as [|y do']; [cbn in Nd; congruence|].
      assert (I' : incl (alphabet (redo_log parts i)) (alphabet v)) by (intros x Hx; apply H1; unfold gs; cbn [concat]; apply in_or_app; right; auto).
      split; auto. apply (alphabet_strict _ v y); auto; [apply H1; left; auto|]. intros Hy. apply I in Hy. unfold gs in H2. cbn [concat] in H2. apply (NoDup_app_disj _ _ y H2); auto. left; auto.
  Qed.
  (** with the DFG of the log *)
  Hypothesis closed : forall c x y, In c redo -> In x c -> In (x, y) (edges (discover_dfg_uvcl v)) \/ In (y, x) (edges (discover_dfg_uvcl v)) -> ~ In y do -> In y c.
  Hypothesis cover : forall x, In x (alphabet v) <-> In x (concat gs).
  Hypothesis disj : NoDup (concat gs).
  Lemma full_filter t : In t (d_keys v) -> filter (fun e => smem e do || smem e (concat redo)) t = t.
  Proof.
    intros Ht. assert (H : forall x, In x t -> smem x do || smem x (concat redo) = true).
    { intros x Hx. assert (Hc : In x (concat gs)) by (apply cover, alphabet_iff; eauto). unfold gs in Hc. cbn [concat] in Hc. apply in_app_or in Hc. apply orb_true_iff. rewrite !smem_in. auto. }
    clear Ht. induction t as [|x t IH]; auto. cbn [filter]. rewrite H by (left; auto). rewrite IH; auto. intros; apply H; right; auto.
  Qed.
  Lemma redo_one_group t ds rs r : In t (d_keys v) -> alternate ds rs t -> within do (concat redo) ds rs -> In r rs -> exists i, i < length redo /\ incl r (nth i redo []) /\ redo_index redo r = i.
  Proof.
    intros Ht A (W1 & W2 & W3) Hr. destruct (alternate_sub _ _ _ A r Hr) as (pre & post & E). pose proof (W3 r Hr) as Nr.
    assert (Wr : incl r (concat redo)) by (intros x Hx; eapply W2; eauto).
    assert (Hadj : forall x y, In (x, y) (adj r) -> In (x, y) (edges (discover_dfg_uvcl v))). { intros x y H. apply dfg_edges. exists t. split; auto. rewrite E. apply adj_sub; auto. }
    assert (Hnd : forall x, In x (concat redo) -> ~ In x do). { intros x Hx Hd. unfold gs in disj. cbn [concat] in disj. apply (NoDup_app_disj _ _ x disj); auto. }
    clear E A W1 W2 W3 Hr. destruct r as [|a r]; [congruence|].
    pose proof (Wr a ltac:(left; auto)) as Ha. apply in_concat_nth in Ha. destruct Ha as (i & Hi & Ha).
    assert (Hin : incl (a :: r) (nth i redo [])).
    { clear Nr. revert a Ha Hadj Wr. induction r as [|b r IH]; intros a Ha Hadj Wr x [<-|Hx]; auto; [destruct Hx|]. apply (IH b); auto.
      - apply (closed _ a b); auto; [apply nth_In; auto|left; apply Hadj; left; auto|apply Hnd, Wr; right; left; auto].
      - intros y z H. apply Hadj. right; auto.
      - intros y Hy. apply Wr. right; auto. }
    exists i. split; auto. split; auto. unfold redo_index. apply (argmax_only (fun g => length (filter (fun a => smem a g) (dedup (a :: r)))) redo i []); auto.
    - apply (in_pos _ a). apply filter_In; split; [apply dedup_in; left; auto|apply smem_in; auto].
    - intros j Hj P. apply pos_in in P. destruct P as (x & Hx). apply filter_In in Hx. destruct Hx as [Hx1 Hx2]. apply (proj1 (dedup_in _ _)) in Hx1. apply smem_in in Hx2.
      unfold gs in disj. cbn [concat] in disj. apply (group_unique redo j i x); auto. exact (NoDup_app_r _ _ disj).
  Qed.
  Lemma loop_fits subs ts : v <> [] -> loop_project v gs = Some subs -> Forall2 fits subs ts -> fits v (Node Loop ts).
  Proof.
    intros Nv E H. split; [|congruence]. intros t Ht. destruct loop_parts as (parts & E' & P1 & P2). unfold loop_project, gs in E. rewrite E' in E. injection E as <-.
    change (Forall2 fits (do_log parts :: map (redo_log parts) (seq 0 (length redo))) ts) in H. inversion H as [|? d ? us Hd Hus]; subst.
    destruct (P2 t Ht) as (p & Hp & A & W). rewrite full_filter in A by auto. apply (alternate_lang d us _ _ t A).
    - intros q Hq. apply Hd. apply do_log_keys. eauto.
    - intros q Hq. destruct (redo_one_group t _ _ q Ht A W Hq) as (i & Hi & _ & Ei). destruct (forall2_nth _ _ _ i (redo_log parts i) Hus) as (u & Hu & Fu); [apply nth_error_map_seq; auto|].
      exists u. split; [eapply nth_error_In; eauto|]. apply Fu. apply redo_log_keys. eauto.
  Qed.
  Lemma loop_alphabet subs : loop_project v gs = Some subs -> Permutation (concat (map alphabet subs)) (alphabet v).
  Proof.
    intros E. destruct loop_parts as (parts & E' & P1 & P2). unfold loop_project, gs in E. rewrite E' in E. injection E as <-.
    change (Permutation (concat (map alphabet (do_log parts :: map (redo_log parts) (seq 0 (length redo))))) (alphabet v)).
    assert (Ado : incl (alphabet (do_log parts)) do).
    { intros x Hx. apply alphabet_iff in Hx. destruct Hx as (k & Hk & Hx). apply do_log_keys in Hk. destruct Hk as (p & Hp & Hk). destruct (P1 p Hp) as (t & _ & _ & W & _). eapply W; eauto. }
    assert (Are : forall i, i < length redo -> incl (alphabet (redo_log parts i)) (nth i redo [])).
    { intros i Hi x Hx. apply alphabet_iff in Hx. destruct Hx as (k & Hk & Hx). apply redo_log_keys in Hk. destruct Hk as (p & Hp & Hk & Ei). destruct (P1 p Hp) as (t & Hin & A & W).
      assert (Ht : In t (d_keys v)) by (apply in_map_iff; exists (t, snd p); auto). rewrite full_filter in A by auto. destruct (redo_one_group t _ _ k Ht A W Hk) as (j & Hj & Hk' & Ej). replace i with j by congruence. auto. }
    apply (partition_alphabet v _ gs); auto.
    - constructor; auto. apply (forall2_seq _ (redo_log parts) redo []). auto.
    - intros s Hs' x Hx. apply cover. unfold gs. cbn [concat]. apply in_or_app. destruct Hs' as [<-|Hs']; [left; auto|right]. apply in_map_seq in Hs'. destruct Hs' as (i & Hi & <-). apply in_concat_nth. exists i. split; auto. apply (Are i Hi); auto.
    - intros x Hx. apply alphabet_iff in Hx. destruct Hx as (t & Ht & Hx). destruct (P2 t Ht) as (p & Hp & A & W). rewrite full_filter in A by auto. destruct (alternate_in _ _ _ A x Hx) as (q & [Hq|Hq] & Hxq).
      + exists (do_log parts). split; [left; auto|]. apply alphabet_iff. exists q. split; auto. apply do_log_keys. eauto.
      + destruct (redo_one_group t _ _ q Ht A W Hq) as (i & Hi & _ & Ei). exists (redo_log parts i). split; [right; apply in_map_seq; eauto|]. apply alphabet_iff. exists q. split; auto. apply redo_log_keys. eauto.
  Qed.
End Loop.
