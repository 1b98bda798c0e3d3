(** Proofs about the syntax tree editor: carrying the changes out one after the other. *)
From Coq Require Import Permutation.
From Verif Require Import Base SyntaxKind TextEditModel ParserModel TreeSinkModel TreeSinkSpec TreeDiffModel TreeDiffSpec TreeDiffProofs EditorModel EditorSpec.
Close Scope N_scope.
Open Scope nat_scope.

(** * The mutable tree with a plan carried out *)
Fixpoint medit (pl : plan) (p : place_path) (t : tree) : list mtree :=
  match instead_of pl p with
  | Some es => map fresh es
  | None =>
      [match t with
       | TTok k x => MTok (Some p) k x
       | TNode k ch => MNode (Some p) k (map fresh (first_of pl p) ++
           (fix go (i : nat) (ch : list tree) : list mtree :=
              match ch with [] => [] | c :: r => medit pl (p ++ [i]) c ++ go (S i) r end) 0 ch)
       end]
  end ++ map fresh (after_of pl p).
Fixpoint mkids (pl : plan) (p : place_path) (i : nat) (ch : list tree) : list mtree :=
  match ch with [] => [] | c :: r => medit pl (p ++ [i]) c ++ mkids pl p (S i) r end.
Lemma mkids_fix : forall pl p ch i, (fix go (i : nat) (ch : list tree) : list mtree :=
              match ch with [] => [] | c :: r => medit pl (p ++ [i]) c ++ go (S i) r end) i ch = mkids pl p i ch.
Proof. intros pl p ch. induction ch as [|c ch IH]; intros i; [reflexivity|]. cbn. now rewrite <- IH. Qed.
Lemma medit_node : forall pl p k ch, medit pl p (TNode k ch) =
  match instead_of pl p with Some es => map fresh es | None => [MNode (Some p) k (map fresh (first_of pl p) ++ mkids pl p 0 ch)] end ++ map fresh (after_of pl p).
Proof. intros. cbn. rewrite <- mkids_fix. reflexivity. Qed.
Fixpoint okids (pl : plan) (p : place_path) (i : nat) (ch : list tree) : list tree :=
  match ch with [] => [] | c :: r => carried_out pl (p ++ [i]) c ++ okids pl p (S i) r end.
Lemma okids_fix : forall pl p ch i, (fix go (i : nat) (ch : list tree) : list tree :=
              match ch with [] => [] | c :: r => carried_out pl (p ++ [i]) c ++ go (S i) r end) i ch = okids pl p i ch.
Proof. intros pl p ch. induction ch as [|c ch IH]; intros i; [reflexivity|]. cbn. now rewrite <- IH. Qed.
Lemma carried_node : forall pl p k ch, carried_out pl p (TNode k ch) =
  match instead_of pl p with Some es => es | None => [TNode k (first_of pl p ++ okids pl p 0 ch)] end ++ after_of pl p.
Proof. intros. cbn. rewrite <- okids_fix. reflexivity. Qed.

Lemma erase_fresh : forall t, erase (fresh t) = t.
Proof. intros t. induction t as [k ch IH|k x] using tree_ind2; [|reflexivity]. cbn. f_equal. rewrite map_map. rewrite <- (map_id ch) at 2. apply map_ext_Forall. exact IH. Qed.
Lemma erase_freshes : forall l, map erase (map fresh l) = l.
Proof. intros l. rewrite map_map. rewrite <- (map_id l) at 2. apply map_ext. apply erase_fresh. Qed.
Lemma erase_medit : forall pl t p, map erase (medit pl p t) = carried_out pl p t.
Proof.
  intros pl t. induction t as [k ch IH|k x] using tree_ind2; intros p.
  - rewrite medit_node, carried_node, map_app, erase_freshes. f_equal. destruct (instead_of pl p) as [es|]; [apply erase_freshes|]. cbn. do 2 f_equal. rewrite map_app, erase_freshes. f_equal.
    generalize 0. induction IH as [|c r Hc Hr IHr]; intros i; [reflexivity|]. cbn. rewrite map_app, Hc. f_equal. apply IHr.
  - cbn. rewrite map_app, erase_freshes. f_equal. destruct (instead_of pl p) as [es|]; [apply erase_freshes|reflexivity].
Qed.
(** nothing to do *)
Definition idle : plan := mkPlan (fun _ => []) (fun _ => []) (fun _ => None).
Fixpoint lkids (p : place_path) (i : nat) (ch : list tree) : list mtree := match ch with [] => [] | c :: r => labelled (p ++ [i]) c :: lkids p (S i) r end.
Lemma labelled_node : forall p k ch, labelled p (TNode k ch) = MNode (Some p) k (lkids p 0 ch).
Proof.
  intros. cbn. f_equal. generalize 0. induction ch as [|c ch IH]; intros i; [reflexivity|]. cbn. now rewrite <- IH.
Qed.
Lemma medit_idle : forall t p, medit idle p t = [labelled p t].
Proof.
  intros t. induction t as [k ch IH|k x] using tree_ind2; intros p; [|reflexivity]. rewrite medit_node, labelled_node. cbn. do 2 f_equal.
  generalize 0. induction IH as [|c r Hc Hr IHr]; intros i; [reflexivity|]. cbn. now rewrite Hc, IHr.
Qed.
(** only the plan below a path matters *)
Definition agree_below (p : place_path) (a b : plan) : Prop := forall q, prefix p q -> first_of a q = first_of b q /\ after_of a q = after_of b q /\ instead_of a q = instead_of b q.
Lemma prefix_refl : forall p, prefix p p. Proof. intros p. exists []. now rewrite app_nil_r. Qed.
Lemma prefix_snoc : forall p i q, prefix (p ++ [i]) q -> prefix p q. Proof. intros p i q [r ->]. exists ([i] ++ r). now rewrite app_assoc. Qed.
Lemma medit_ext : forall t p a b, agree_below p a b -> medit a p t = medit b p t.
Proof.
  intros t. induction t as [k ch IH|k x] using tree_ind2; intros p a b H.
  - rewrite !medit_node. destruct (H p (prefix_refl p)) as (-> & -> & ->). f_equal. destruct (instead_of b p); [reflexivity|]. do 3 f_equal.
    generalize 0. induction IH as [|c r Hc Hr IHr]; intros i; [reflexivity|]. cbn. rewrite IHr. f_equal. apply Hc. intros q Q. apply H. eapply prefix_snoc, Q.
  - cbn. destruct (H p (prefix_refl p)) as (_ & -> & ->). reflexivity.
Qed.
Lemma mkids_ext : forall ch p a b i, (forall j, i <= j -> agree_below (p ++ [j]) a b) -> mkids a p i ch = mkids b p i ch.
Proof.
  intros ch p a b. induction ch as [|c ch IH]; intros i H; [reflexivity|]. cbn. rewrite (medit_ext c (p ++ [i]) a b) by (apply H; lia). f_equal. apply IH. intros j L. apply H. lia.
Qed.

(** * Labels *)
Fixpoint labels (m : mtree) : list place_path := match m with MNode l _ ch => match l with Some p => [p] | None => [] end ++ flat_map labels ch | MTok l _ _ => match l with Some p => [p] | None => [] end end.
Fixpoint mtree_ind2 (P : mtree -> Prop) (HN : forall l k ch, Forall P ch -> P (MNode l k ch)) (HT : forall l k x, P (MTok l k x)) (m : mtree) {struct m} : P m :=
  match m with
  | MNode l k ch => HN l k ch ((fix go (ch : list mtree) : Forall P ch := match ch with [] => Forall_nil P | c :: r => Forall_cons c (mtree_ind2 P HN HT c) (go r) end) ch)
  | MTok l k x => HT l k x
  end.
Lemma labels_fresh : forall t, labels (fresh t) = [].
Proof. intros t. induction t as [k ch IH|k x] using tree_ind2; [|reflexivity]. cbn. induction IH as [|c r H _ IHr]; [reflexivity|]. cbn. now rewrite H, IHr. Qed.
Lemma labels_freshes : forall l, flat_map labels (map fresh l) = [].
Proof. induction l as [|t l IH]; [reflexivity|]. cbn. now rewrite labels_fresh, IH. Qed.
Lemma labels_medit : forall pl t p q, In q (flat_map labels (medit pl p t)) -> prefix p q.
Proof.
  intros pl t. induction t as [k ch IH|k x] using tree_ind2; intros p q.
  - rewrite medit_node, flat_map_app, labels_freshes, app_nil_r. destruct (instead_of pl p) as [es|]; [rewrite labels_freshes; intros []|]. cbn [flat_map labels]. rewrite app_nil_r.
    rewrite flat_map_app, labels_freshes. cbn [app]. intros [<-|H]; [apply prefix_refl|]. revert H. generalize 0. induction IH as [|c r Hc Hr IHr]; intros i; [intros []|]. cbn. rewrite flat_map_app. intros H. apply in_app_or in H as [H|H].
    + apply Hc in H. eapply prefix_snoc, H.
    + eapply IHr, H.
  - cbn. rewrite flat_map_app, labels_freshes, app_nil_r. destruct (instead_of pl p) as [es|]; [rewrite labels_freshes; intros []|]. cbn. intros [<-|[]]. apply prefix_refl.
Qed.
Lemma labels_mkids : forall pl ch p i q, In q (flat_map labels (mkids pl p i ch)) -> exists j r, i <= j /\ j < i + length ch /\ q = p ++ j :: r.
Proof.
  intros pl ch. induction ch as [|c ch IH]; intros p i q; [intros []|]. cbn. rewrite flat_map_app. intros H. apply in_app_or in H as [H|H].
  - apply labels_medit in H as [r ->]. exists i, r. rewrite <- app_assoc. repeat split; lia.
  - apply IH in H as (j & r & L1 & L2 & ->). exists j, r. repeat split; lia.
Qed.
Lemma path_eqb_spec : forall a b, path_eqb a b = true <-> a = b.
Proof. intros. unfold path_eqb. destruct (list_eq_dec _ a b); split; auto; discriminate. Qed.
Lemma has_label_in : forall p m, has_label p m = true -> In p (labels m).
Proof. intros p m. unfold has_label. destruct m as [[q|] k ch|[q|] k x]; cbn; try discriminate; intros E; apply path_eqb_spec in E; subst; now left. Qed.
Lemma has_label_spec : forall p m, has_label p m = true <-> label m = Some p.
Proof. intros p m. unfold has_label. destruct (label m) as [q|]; [|split; discriminate]. rewrite path_eqb_spec. split; [intros ->; auto|intros [= ->]; auto]. Qed.
Lemma existsb_label : forall p l, ~ In p (flat_map labels l) -> existsb (has_label p) l = false.
Proof.
  intros p l H. destruct (existsb (has_label p) l) eqn:E; auto. exfalso. apply H. apply existsb_exists in E as (m & I & E). apply in_flat_map. exists m. split; auto. now apply has_label_in.
Qed.
Lemma at_parent_absent : forall p g m, ~ In p (labels m) -> at_parent p g m = m.
Proof.
  intros p g m. induction m as [l k ch IH|l k x] using mtree_ind2; intros H; [|reflexivity]. cbn in *. assert (H' : ~ In p (flat_map labels ch)) by (intros X; apply H, in_or_app; auto).
  rewrite existsb_label by auto. f_equal. rewrite <- (map_id ch) at 2. apply map_ext_in. intros c I. rewrite Forall_forall in IH. apply IH; auto. intros X. apply H'. apply in_flat_map. eauto.
Qed.
Lemma at_parents_absent : forall p g l, ~ In p (flat_map labels l) -> map (at_parent p g) l = l.
Proof. intros p g l H. rewrite <- (map_id l) at 2. apply map_ext_in. intros c I. apply at_parent_absent. intros X. apply H. apply in_flat_map. eauto. Qed.
Lemma at_node_absent : forall p g m, ~ In p (labels m) -> at_node p g m = m.
Proof.
  intros p g m. induction m as [l k ch IH|l k x] using mtree_ind2; intros H; [|reflexivity]. cbn [at_node]. destruct (has_label p (MNode l k ch)) eqn:E; [apply has_label_in in E; contradiction|].
  f_equal. rewrite <- (map_id ch) at 2. apply map_ext_in. intros c I. rewrite Forall_forall in IH. apply IH; auto. intros X. apply H. cbn. apply in_or_app. right. apply in_flat_map. eauto.
Qed.
Lemma at_nodes_absent : forall p g l, ~ In p (flat_map labels l) -> map (at_node p g) l = l.
Proof. intros p g l H. rewrite <- (map_id l) at 2. apply map_ext_in. intros c I. apply at_node_absent. intros X. apply H. apply in_flat_map. eauto. Qed.

(** * Splitting the children *)
Lemma mkids_app : forall pl p a b i, mkids pl p i (a ++ b) = mkids pl p i a ++ mkids pl p (i + length a) b.
Proof. intros pl p a. induction a as [|c a IH]; intros b i; cbn; [now rewrite Nat.add_0_r|]. rewrite IH, app_assoc. do 2 f_equal. lia. Qed.
Lemma mkids_split : forall pl p ch j c, nth_error ch j = Some c -> exists a b, ch = a ++ c :: b /\ length a = j /\ mkids pl p 0 ch = mkids pl p 0 a ++ medit pl (p ++ [j]) c ++ mkids pl p (S j) b.
Proof.
  intros pl p ch j c H. apply nth_error_split in H as (a & b & -> & L). exists a, b. split; auto. split; auto. rewrite mkids_app. cbn. now rewrite L.
Qed.
Lemma app_ne : forall (q : place_path) i r j s, i <> j -> q ++ i :: r <> q ++ j :: s.
Proof. intros q i r j s N E. apply app_inv_head in E. now injection E as ->. Qed.
Lemma app_ne_self : forall (q : place_path) i r, q <> q ++ i :: r.
Proof. intros q i r E. rewrite <- (app_nil_r q) in E at 1. apply app_inv_head in E. discriminate. Qed.
(** two plans that differ at [p] only *)
Definition differ_at (p : place_path) (a b : plan) : Prop := forall q, q <> p -> first_of a q = first_of b q /\ after_of a q = after_of b q /\ instead_of a q = instead_of b q.
Lemma differ_below : forall p a b q, differ_at p a b -> ~ prefix q p -> agree_below q a b.
Proof. intros p a b q D N r P. apply D. intros ->. auto. Qed.

Lemma not_in_kids : forall pl q ch i p, (forall j r, p = q ++ j :: r -> j < i \/ i + length ch <= j) -> ~ In p (flat_map labels (mkids pl q i ch)).
Proof. intros pl q ch i p H I. apply labels_mkids in I as (j & r & L1 & L2 & E). apply H in E. lia. Qed.
Lemma kids_other : forall q ch i p a b, differ_at p a b -> (forall j r, p = q ++ j :: r -> j < i \/ i + length ch <= j) -> mkids a q i ch = mkids b q i ch.
Proof.
  intros q ch. induction ch as [|c ch IH]; intros i p a b D H; [reflexivity|]. cbn. rewrite (medit_ext c (q ++ [i]) a b).
  - f_equal. eapply IH; eauto. intros j r E. apply H in E. cbn [length] in E. lia.
  - apply (differ_below p); auto. intros [r E]. rewrite <- app_assoc in E. apply H in E. cbn in E. lia.
Qed.

(** * One change *)
Section Change.
Variable pl pl' : plan.
Variable g : list mtree -> list mtree.
(** changing the list around the element at a path *)
Lemma at_parent_medit : forall r j t q e, element_at t (j :: r) = Some e ->
  differ_at (q ++ j :: r) pl pl' ->
  (forall r', (exists s, j :: r = r' ++ s /\ s <> []) -> instead_of pl (q ++ r') = None) ->
  (forall A B, ~ In (q ++ j :: r) (flat_map labels A) -> ~ In (q ++ j :: r) (flat_map labels B) -> existsb (has_label (q ++ j :: r)) (A ++ medit pl (q ++ j :: r) e ++ B) = true /\
     g (A ++ medit pl (q ++ j :: r) e ++ B) = A ++ medit pl' (q ++ j :: r) e ++ B) ->
  map (at_parent (q ++ j :: r) g) (medit pl q t) = medit pl' q t.
Proof.
  induction r as [|j' r IH]; intros j t q e HE D NI G.
  - cbn in HE. destruct t as [k ch|]; [|discriminate]. destruct (nth_error ch j) as [c|] eqn:Nth; [|discriminate]. injection HE as ->.
    rewrite !medit_node. destruct (D q (app_ne_self q j [])) as (Df & Da & Di). rewrite <- Df, <- Da, <- Di.
    assert (NI0 : instead_of pl q = None) by (rewrite <- (app_nil_r q); apply NI; exists [j]; split; [reflexivity|discriminate]). rewrite NI0. rewrite map_app. f_equal; [|apply at_parents_absent; rewrite labels_freshes; auto].
    cbn [map at_parent]. do 2 f_equal.
    destruct (mkids_split pl q ch j e Nth) as (a & b & E & L & ->). subst ch. rewrite (app_assoc (map fresh (first_of pl q))).
    destruct (G (map fresh (first_of pl q) ++ mkids pl q 0 a) (mkids pl q (S j) b)) as [G1 G2].
    + rewrite flat_map_app, labels_freshes. apply not_in_kids. intros i r E. apply app_inv_head in E. injection E as <- <-. lia.
    + apply not_in_kids. intros i r E. apply app_inv_head in E. injection E as <- <-. lia.
    + rewrite G1, G2. rewrite <- app_assoc. f_equal. rewrite mkids_app. cbn [mkids Nat.add]. rewrite L. rewrite (kids_other q a 0 (q ++ [j]) pl pl' D); [|intros i r E; apply app_inv_head in E; injection E as <- <-; lia].
      f_equal. f_equal. apply (kids_other q b (S j) (q ++ [j])); auto. intros i r E. apply app_inv_head in E. injection E as <- <-. lia.
  - change (match t with TNode _ ch => match nth_error ch j with Some c => element_at c (j' :: r) | None => None end | TTok _ _ => None end = Some e) in HE.
    destruct t as [k ch|]; [|discriminate]. destruct (nth_error ch j) as [c|] eqn:Nth; [|discriminate].
    set (p := q ++ j :: j' :: r) in *.
    rewrite !medit_node. destruct (D q) as (Df & Da & Di); [apply app_ne_self|]. rewrite <- Df, <- Da, <- Di.
    assert (NI0 : instead_of pl q = None) by (rewrite <- (app_nil_r q); apply NI; exists (j :: j' :: r); split; [reflexivity|discriminate]). rewrite NI0. rewrite map_app. f_equal; [|apply at_parents_absent; rewrite labels_freshes; auto].
    cbn [map at_parent]. do 2 f_equal.
    assert (EP : p = (q ++ [j]) ++ j' :: r) by (unfold p; now rewrite <- app_assoc).
    replace (existsb (has_label p) (map fresh (first_of pl q) ++ mkids pl q 0 ch)) with false.
    2:{ symmetry. rewrite existsb_app. rewrite existsb_label by (rewrite labels_freshes; auto). cbn.
        destruct (existsb (has_label p) (mkids pl q 0 ch)) eqn:X; auto. exfalso. clear - X. revert X. unfold p. generalize 0. induction ch as [|c ch IHc]; intros i; [discriminate|]. cbn [mkids]. rewrite existsb_app. intros X. apply orb_true_iff in X as [X|X]; [|eapply IHc, X].
        apply existsb_exists in X as (m & I & X). apply has_label_spec in X.
        assert (LM : forall m, In m (medit pl (q ++ [i]) c) -> label m = Some (q ++ [i]) \/ label m = None).
        { clear. intros m I. assert (F : forall l, In m (map fresh l) -> label m = None) by (intros l J; apply in_map_iff in J as (x & <- & _); destruct x; reflexivity).
          destruct c as [k ch'|k x]; [rewrite medit_node in I|cbn in I]; apply in_app_or in I as [I|I]; try (right; eapply F, I); destruct (instead_of pl (q ++ [i])); try (right; eapply F, I); destruct I as [<-|[]]; now left. }
        destruct (LM m I) as [E|E]; rewrite E in X; [|discriminate]. injection X as X. apply app_inv_head in X. discriminate. }
    destruct (mkids_split pl q ch j c Nth) as (a & b & E & L & ->). subst ch. rewrite !map_app. rewrite at_parents_absent by (rewrite labels_freshes; auto). f_equal. rewrite mkids_app. cbn [mkids Nat.add]. rewrite L.
    rewrite (at_parents_absent p g (mkids pl q 0 a)); [|apply not_in_kids; intros i s E; apply app_inv_head in E; injection E as <- <-; lia].
    rewrite (kids_other q a 0 p pl pl' D); [|intros i s E; apply app_inv_head in E; injection E as <- <-; lia]. f_equal.
    rewrite (at_parents_absent p g (mkids pl q (S j) b)); [|apply not_in_kids; intros i s E; apply app_inv_head in E; injection E as <- <-; lia].
    rewrite (kids_other q b (S j) p pl pl' D); [|intros i s E; apply app_inv_head in E; injection E as <- <-; lia]. f_equal.
    rewrite EP. apply (IH j' c (q ++ [j]) e HE); rewrite <- ?EP; auto.
    intros r' (s & E & Ns). rewrite <- app_assoc. apply NI. exists s. split; auto. cbn. now rewrite E.
Qed.
(** changing the children of the node at a path *)
Lemma at_node_medit : forall r t q k ch, element_at t r = Some (TNode k ch) ->
  differ_at (q ++ r) pl pl' ->
  (forall r', (exists s, r = r' ++ s) -> instead_of pl (q ++ r') = None) ->
  medit pl' (q ++ r) (TNode k ch) = MNode (Some (q ++ r)) k (g (map fresh (first_of pl (q ++ r)) ++ mkids pl (q ++ r) 0 ch)) :: map fresh (after_of pl (q ++ r)) ->
  map (at_node (q ++ r) g) (medit pl q t) = medit pl' q t.
Proof.
  induction r as [|j r IH]; intros t q k ch HE D NI G.
  - cbn in HE. injection HE as ->. rewrite app_nil_r in *. rewrite G. rewrite medit_node. rewrite <- (app_nil_r q) at 2. rewrite NI by (exists []; reflexivity).
    cbn [app map at_node]. f_equal; [|apply at_nodes_absent; rewrite labels_freshes; auto].
    match goal with |- (if ?x then _ else _) = _ => replace x with true; [reflexivity|symmetry; apply has_label_spec; reflexivity] end.
  - cbn in HE. destruct t as [k0 ch0|]; [|discriminate]. destruct (nth_error ch0 j) as [c|] eqn:Nth; [|discriminate].
    set (p := q ++ j :: r) in *.
    rewrite !medit_node. destruct (D q) as (Df & Da & Di); [apply app_ne_self|]. rewrite <- Df, <- Da, <- Di.
    assert (NI0 : instead_of pl q = None) by (rewrite <- (app_nil_r q); apply NI; exists (j :: r); reflexivity). rewrite NI0. rewrite map_app. f_equal; [|apply at_nodes_absent; rewrite labels_freshes; auto].
    cbn [map at_node]. match goal with |- [if ?x then _ else _] = _ => replace x with false end.
    2:{ symmetry. match goal with |- ?x = _ => destruct x eqn:X; auto end. apply has_label_spec in X. cbn in X. injection X as X. exfalso. revert X. apply app_ne_self. }
    do 2 f_equal.
    assert (EP : p = (q ++ [j]) ++ r) by (unfold p; now rewrite <- app_assoc).
    destruct (mkids_split pl q ch0 j c Nth) as (a & b & E & L & ->). subst ch0. rewrite !map_app. rewrite at_nodes_absent by (rewrite labels_freshes; auto). f_equal. rewrite mkids_app. cbn [mkids Nat.add]. rewrite L.
    rewrite (at_nodes_absent p g (mkids pl q 0 a)); [|apply not_in_kids; intros i s E; apply app_inv_head in E; injection E as <- <-; lia].
    rewrite (kids_other q a 0 p pl pl' D); [|intros i s E; apply app_inv_head in E; injection E as <- <-; lia]. f_equal.
    rewrite (at_nodes_absent p g (mkids pl q (S j) b)); [|apply not_in_kids; intros i s E; apply app_inv_head in E; injection E as <- <-; lia].
    rewrite (kids_other q b (S j) p pl pl' D); [|intros i s E; apply app_inv_head in E; injection E as <- <-; lia]. f_equal.
    rewrite EP. apply (IH c (q ++ [j]) k ch HE); rewrite <- ?EP; auto.
    intros r' (s & E). rewrite <- app_assoc. apply NI. exists s. cbn. now rewrite E.
Qed.
End Change.
