(** Model of one update of the application: every system of the plugin, and the order constraints between them.
    crates/bevy_flair_style/src/lib.rs:303-319, 356-445; systems.rs 39-1335; components.rs:86-130 (NodeStyleMarker), 934-1068.
    Nodes are numbers; a set of nodes is the number with these bits. What a system computes from what it reads is an arbitrary function;
    what is modelled is which parts of the world it reads and writes, that markers are only ever set by several systems, and ticking and resetting.
    A system writes only at the nodes it visits, and flags NodeStyleData as changed there. Commands are applied where they are issued: bevy puts a sync point before the next set.
    PreUpdate and PostUpdate are one sequence. The animations plugin is the default one, in PostUpdate. Systems and observers of the application between those of the plugin are not modelled. *)
From Coq Require Import NArith Permutation.
From Verif Require Import Base.
Open Scope nat_scope.

(** ** The systems *)
Inductive system :=
(** PreUpdate *)
| SheetChanged | ClearGlobal | WindowTheme
(** Prepare *)
| Effective | WindowFeatures | SortPseudo | SyncSiblings | ResetProps
(** SetStyleData *)
| IsRoot | Classes | Attributes | SyncPressed | SyncDisabled | SyncChecked | SyncHovered | SyncInteraction | Names | SyncFocus
(** MarkNodesForRecalculation *)
| MarkRelated | MarkChanged | MarkTarget | MarkWindow
(** CalculateStyles to SetAnimationValues *)
| Calculate | SetValues | Compute | ResolveAnims | SetAnimValues
(** ApplyComputedProperties, EmitRedrawEvent *)
| Placeholders | Apply | AutoRemove | Redraw
(** TickAnimations, EmitAnimationEvents *)
| Tick | EmitEvents.
Definition systems : list system := [SheetChanged; ClearGlobal; WindowTheme; Effective; WindowFeatures; SortPseudo; SyncSiblings; ResetProps; IsRoot; Classes; Attributes;
  SyncPressed; SyncDisabled; SyncChecked; SyncHovered; SyncInteraction; Names; SyncFocus; MarkRelated; MarkChanged; MarkTarget; MarkWindow; Tick; Calculate; SetValues; Compute;
  ResolveAnims; SetAnimValues; Placeholders; Apply; AutoRemove; Redraw; EmitEvents].

(** what the parts of the world hold *)
Record kinds := mkkinds { KHier : Type; KOrd : Type; KSib : Type; KExt : Type; KEff : Type; KFlg : Type; KWin : Type; KFeat : Type; KRoot : Type; KCls : Type; KAtt : Type; KNid : Type; KFoc : Type; KRul : Type; KVrs : Type; KCmp : Type; KAuto : Type; KMot : Type; KRest : Type; KEv : Type }.
Section World.
Variable k : kinds.
Local Notation Hier := (KHier k).
Local Notation Ord := (KOrd k).
Local Notation Sib := (KSib k).
Local Notation Ext := (KExt k).
Local Notation Eff := (KEff k).
Local Notation Flg := (KFlg k).
Local Notation Win := (KWin k).
Local Notation Feat := (KFeat k).
Local Notation Root := (KRoot k).
Local Notation Cls := (KCls k).
Local Notation Att := (KAtt k).
Local Notation Nid := (KNid k).
Local Notation Foc := (KFoc k).
Local Notation Rul := (KRul k).
Local Notation Vrs := (KVrs k).
Local Notation Cmp := (KCmp k).
Local Notation Auto := (KAuto k).
Local Notation Mot := (KMot k).
Local Notation Rest := (KRest k).
Local Notation Ev := (KEv k).
(** components.rs:430-470: the parts of NodeProperties that reset keeps, animations and transitions, the rest, pending events *)
Record node_props := mkprops { p_auto : Auto; p_motions : list Mot; p_rest : Rest; p_events : list Ev }.
Record world := mkworld {
  w_hier : Hier (** the parents of the nodes *);
  w_ord : Ord (** Children: the order of the children of each node *);
  w_sib : Sib (** Siblings *);
  w_ext : Ext (** all components, resources, assets and messages that no system here writes, with what changed since the last update *);
  w_eff : Eff (** NodeStyleData: the effective sheet *);
  w_flg : Flg (** NodeStyleSelectorFlags *);
  w_recalc : N (** NodeStyleMarker::needs_style_recalculation *);
  w_rst : N (** NodeStyleMarker::needs_reset *);
  w_win : Win (** Window *);
  w_feat : Feat (** WindowMediaFeatures *);
  w_root : Root (** NodeStyleData::is_root *);
  w_cls : Cls (** NodeStyleData::classes *);
  w_att : Att (** NodeStyleData::attributes *);
  w_nid : Nid (** NodeStyleData::id *);
  w_foc : Foc (** NodePseudoState::focused, focused_and_visible, and the local memory of sync_input_focus *);
  w_prs : N (** NodePseudoState::pressed *);
  w_dis : N (** NodePseudoState::disabled *);
  w_chk : N (** NodePseudoState::checked *);
  w_hov : N (** NodePseudoState::hovered *);
  w_dirty : N (** nodes whose NodeStyleData changed *);
  w_rul : Rul (** NodeStyleActiveRules *);
  w_vrs : Vrs (** NodeVars *);
  w_cmp : Cmp (** the components properties are written to *);
  w_props : list node_props (** NodeProperties, by node *);
  w_app : N (** NodeStyleMarker::needs_property_application *);
  w_anyprop : bool (** GlobalChangeDetection::any_property_value_changed *);
  w_active : bool (** GlobalChangeDetection::any_animation_active, which nothing reads *);
  w_sent : list Ev (** events sent *);
  w_redraw : bool (** RequestRedraw *) }.
Definition put_hier (x : Hier) (w : world) : world := mkworld x (w_ord w) (w_sib w) (w_ext w) (w_eff w) (w_flg w) (w_recalc w) (w_rst w) (w_win w) (w_feat w) (w_root w) (w_cls w) (w_att w) (w_nid w) (w_foc w) (w_prs w) (w_dis w) (w_chk w) (w_hov w) (w_dirty w) (w_rul w) (w_vrs w) (w_cmp w) (w_props w) (w_app w) (w_anyprop w) (w_active w) (w_sent w) (w_redraw w).
Definition put_ord (x : Ord) (w : world) : world := mkworld (w_hier w) x (w_sib w) (w_ext w) (w_eff w) (w_flg w) (w_recalc w) (w_rst w) (w_win w) (w_feat w) (w_root w) (w_cls w) (w_att w) (w_nid w) (w_foc w) (w_prs w) (w_dis w) (w_chk w) (w_hov w) (w_dirty w) (w_rul w) (w_vrs w) (w_cmp w) (w_props w) (w_app w) (w_anyprop w) (w_active w) (w_sent w) (w_redraw w).
Definition put_sib (x : Sib) (w : world) : world := mkworld (w_hier w) (w_ord w) x (w_ext w) (w_eff w) (w_flg w) (w_recalc w) (w_rst w) (w_win w) (w_feat w) (w_root w) (w_cls w) (w_att w) (w_nid w) (w_foc w) (w_prs w) (w_dis w) (w_chk w) (w_hov w) (w_dirty w) (w_rul w) (w_vrs w) (w_cmp w) (w_props w) (w_app w) (w_anyprop w) (w_active w) (w_sent w) (w_redraw w).
Definition put_ext (x : Ext) (w : world) : world := mkworld (w_hier w) (w_ord w) (w_sib w) x (w_eff w) (w_flg w) (w_recalc w) (w_rst w) (w_win w) (w_feat w) (w_root w) (w_cls w) (w_att w) (w_nid w) (w_foc w) (w_prs w) (w_dis w) (w_chk w) (w_hov w) (w_dirty w) (w_rul w) (w_vrs w) (w_cmp w) (w_props w) (w_app w) (w_anyprop w) (w_active w) (w_sent w) (w_redraw w).
Definition put_eff (x : Eff) (w : world) : world := mkworld (w_hier w) (w_ord w) (w_sib w) (w_ext w) x (w_flg w) (w_recalc w) (w_rst w) (w_win w) (w_feat w) (w_root w) (w_cls w) (w_att w) (w_nid w) (w_foc w) (w_prs w) (w_dis w) (w_chk w) (w_hov w) (w_dirty w) (w_rul w) (w_vrs w) (w_cmp w) (w_props w) (w_app w) (w_anyprop w) (w_active w) (w_sent w) (w_redraw w).
Definition put_flg (x : Flg) (w : world) : world := mkworld (w_hier w) (w_ord w) (w_sib w) (w_ext w) (w_eff w) x (w_recalc w) (w_rst w) (w_win w) (w_feat w) (w_root w) (w_cls w) (w_att w) (w_nid w) (w_foc w) (w_prs w) (w_dis w) (w_chk w) (w_hov w) (w_dirty w) (w_rul w) (w_vrs w) (w_cmp w) (w_props w) (w_app w) (w_anyprop w) (w_active w) (w_sent w) (w_redraw w).
Definition put_recalc (x : N) (w : world) : world := mkworld (w_hier w) (w_ord w) (w_sib w) (w_ext w) (w_eff w) (w_flg w) x (w_rst w) (w_win w) (w_feat w) (w_root w) (w_cls w) (w_att w) (w_nid w) (w_foc w) (w_prs w) (w_dis w) (w_chk w) (w_hov w) (w_dirty w) (w_rul w) (w_vrs w) (w_cmp w) (w_props w) (w_app w) (w_anyprop w) (w_active w) (w_sent w) (w_redraw w).
Definition put_rst (x : N) (w : world) : world := mkworld (w_hier w) (w_ord w) (w_sib w) (w_ext w) (w_eff w) (w_flg w) (w_recalc w) x (w_win w) (w_feat w) (w_root w) (w_cls w) (w_att w) (w_nid w) (w_foc w) (w_prs w) (w_dis w) (w_chk w) (w_hov w) (w_dirty w) (w_rul w) (w_vrs w) (w_cmp w) (w_props w) (w_app w) (w_anyprop w) (w_active w) (w_sent w) (w_redraw w).
Definition put_win (x : Win) (w : world) : world := mkworld (w_hier w) (w_ord w) (w_sib w) (w_ext w) (w_eff w) (w_flg w) (w_recalc w) (w_rst w) x (w_feat w) (w_root w) (w_cls w) (w_att w) (w_nid w) (w_foc w) (w_prs w) (w_dis w) (w_chk w) (w_hov w) (w_dirty w) (w_rul w) (w_vrs w) (w_cmp w) (w_props w) (w_app w) (w_anyprop w) (w_active w) (w_sent w) (w_redraw w).
Definition put_feat (x : Feat) (w : world) : world := mkworld (w_hier w) (w_ord w) (w_sib w) (w_ext w) (w_eff w) (w_flg w) (w_recalc w) (w_rst w) (w_win w) x (w_root w) (w_cls w) (w_att w) (w_nid w) (w_foc w) (w_prs w) (w_dis w) (w_chk w) (w_hov w) (w_dirty w) (w_rul w) (w_vrs w) (w_cmp w) (w_props w) (w_app w) (w_anyprop w) (w_active w) (w_sent w) (w_redraw w).
Definition put_root (x : Root) (w : world) : world := mkworld (w_hier w) (w_ord w) (w_sib w) (w_ext w) (w_eff w) (w_flg w) (w_recalc w) (w_rst w) (w_win w) (w_feat w) x (w_cls w) (w_att w) (w_nid w) (w_foc w) (w_prs w) (w_dis w) (w_chk w) (w_hov w) (w_dirty w) (w_rul w) (w_vrs w) (w_cmp w) (w_props w) (w_app w) (w_anyprop w) (w_active w) (w_sent w) (w_redraw w).
Definition put_cls (x : Cls) (w : world) : world := mkworld (w_hier w) (w_ord w) (w_sib w) (w_ext w) (w_eff w) (w_flg w) (w_recalc w) (w_rst w) (w_win w) (w_feat w) (w_root w) x (w_att w) (w_nid w) (w_foc w) (w_prs w) (w_dis w) (w_chk w) (w_hov w) (w_dirty w) (w_rul w) (w_vrs w) (w_cmp w) (w_props w) (w_app w) (w_anyprop w) (w_active w) (w_sent w) (w_redraw w).
Definition put_att (x : Att) (w : world) : world := mkworld (w_hier w) (w_ord w) (w_sib w) (w_ext w) (w_eff w) (w_flg w) (w_recalc w) (w_rst w) (w_win w) (w_feat w) (w_root w) (w_cls w) x (w_nid w) (w_foc w) (w_prs w) (w_dis w) (w_chk w) (w_hov w) (w_dirty w) (w_rul w) (w_vrs w) (w_cmp w) (w_props w) (w_app w) (w_anyprop w) (w_active w) (w_sent w) (w_redraw w).
Definition put_nid (x : Nid) (w : world) : world := mkworld (w_hier w) (w_ord w) (w_sib w) (w_ext w) (w_eff w) (w_flg w) (w_recalc w) (w_rst w) (w_win w) (w_feat w) (w_root w) (w_cls w) (w_att w) x (w_foc w) (w_prs w) (w_dis w) (w_chk w) (w_hov w) (w_dirty w) (w_rul w) (w_vrs w) (w_cmp w) (w_props w) (w_app w) (w_anyprop w) (w_active w) (w_sent w) (w_redraw w).
Definition put_foc (x : Foc) (w : world) : world := mkworld (w_hier w) (w_ord w) (w_sib w) (w_ext w) (w_eff w) (w_flg w) (w_recalc w) (w_rst w) (w_win w) (w_feat w) (w_root w) (w_cls w) (w_att w) (w_nid w) x (w_prs w) (w_dis w) (w_chk w) (w_hov w) (w_dirty w) (w_rul w) (w_vrs w) (w_cmp w) (w_props w) (w_app w) (w_anyprop w) (w_active w) (w_sent w) (w_redraw w).
Definition put_prs (x : N) (w : world) : world := mkworld (w_hier w) (w_ord w) (w_sib w) (w_ext w) (w_eff w) (w_flg w) (w_recalc w) (w_rst w) (w_win w) (w_feat w) (w_root w) (w_cls w) (w_att w) (w_nid w) (w_foc w) x (w_dis w) (w_chk w) (w_hov w) (w_dirty w) (w_rul w) (w_vrs w) (w_cmp w) (w_props w) (w_app w) (w_anyprop w) (w_active w) (w_sent w) (w_redraw w).
Definition put_dis (x : N) (w : world) : world := mkworld (w_hier w) (w_ord w) (w_sib w) (w_ext w) (w_eff w) (w_flg w) (w_recalc w) (w_rst w) (w_win w) (w_feat w) (w_root w) (w_cls w) (w_att w) (w_nid w) (w_foc w) (w_prs w) x (w_chk w) (w_hov w) (w_dirty w) (w_rul w) (w_vrs w) (w_cmp w) (w_props w) (w_app w) (w_anyprop w) (w_active w) (w_sent w) (w_redraw w).
Definition put_chk (x : N) (w : world) : world := mkworld (w_hier w) (w_ord w) (w_sib w) (w_ext w) (w_eff w) (w_flg w) (w_recalc w) (w_rst w) (w_win w) (w_feat w) (w_root w) (w_cls w) (w_att w) (w_nid w) (w_foc w) (w_prs w) (w_dis w) x (w_hov w) (w_dirty w) (w_rul w) (w_vrs w) (w_cmp w) (w_props w) (w_app w) (w_anyprop w) (w_active w) (w_sent w) (w_redraw w).
Definition put_hov (x : N) (w : world) : world := mkworld (w_hier w) (w_ord w) (w_sib w) (w_ext w) (w_eff w) (w_flg w) (w_recalc w) (w_rst w) (w_win w) (w_feat w) (w_root w) (w_cls w) (w_att w) (w_nid w) (w_foc w) (w_prs w) (w_dis w) (w_chk w) x (w_dirty w) (w_rul w) (w_vrs w) (w_cmp w) (w_props w) (w_app w) (w_anyprop w) (w_active w) (w_sent w) (w_redraw w).
Definition put_dirty (x : N) (w : world) : world := mkworld (w_hier w) (w_ord w) (w_sib w) (w_ext w) (w_eff w) (w_flg w) (w_recalc w) (w_rst w) (w_win w) (w_feat w) (w_root w) (w_cls w) (w_att w) (w_nid w) (w_foc w) (w_prs w) (w_dis w) (w_chk w) (w_hov w) x (w_rul w) (w_vrs w) (w_cmp w) (w_props w) (w_app w) (w_anyprop w) (w_active w) (w_sent w) (w_redraw w).
Definition put_rul (x : Rul) (w : world) : world := mkworld (w_hier w) (w_ord w) (w_sib w) (w_ext w) (w_eff w) (w_flg w) (w_recalc w) (w_rst w) (w_win w) (w_feat w) (w_root w) (w_cls w) (w_att w) (w_nid w) (w_foc w) (w_prs w) (w_dis w) (w_chk w) (w_hov w) (w_dirty w) x (w_vrs w) (w_cmp w) (w_props w) (w_app w) (w_anyprop w) (w_active w) (w_sent w) (w_redraw w).
Definition put_vrs (x : Vrs) (w : world) : world := mkworld (w_hier w) (w_ord w) (w_sib w) (w_ext w) (w_eff w) (w_flg w) (w_recalc w) (w_rst w) (w_win w) (w_feat w) (w_root w) (w_cls w) (w_att w) (w_nid w) (w_foc w) (w_prs w) (w_dis w) (w_chk w) (w_hov w) (w_dirty w) (w_rul w) x (w_cmp w) (w_props w) (w_app w) (w_anyprop w) (w_active w) (w_sent w) (w_redraw w).
Definition put_cmp (x : Cmp) (w : world) : world := mkworld (w_hier w) (w_ord w) (w_sib w) (w_ext w) (w_eff w) (w_flg w) (w_recalc w) (w_rst w) (w_win w) (w_feat w) (w_root w) (w_cls w) (w_att w) (w_nid w) (w_foc w) (w_prs w) (w_dis w) (w_chk w) (w_hov w) (w_dirty w) (w_rul w) (w_vrs w) x (w_props w) (w_app w) (w_anyprop w) (w_active w) (w_sent w) (w_redraw w).
Definition put_props (x : list node_props) (w : world) : world := mkworld (w_hier w) (w_ord w) (w_sib w) (w_ext w) (w_eff w) (w_flg w) (w_recalc w) (w_rst w) (w_win w) (w_feat w) (w_root w) (w_cls w) (w_att w) (w_nid w) (w_foc w) (w_prs w) (w_dis w) (w_chk w) (w_hov w) (w_dirty w) (w_rul w) (w_vrs w) (w_cmp w) x (w_app w) (w_anyprop w) (w_active w) (w_sent w) (w_redraw w).
Definition put_app (x : N) (w : world) : world := mkworld (w_hier w) (w_ord w) (w_sib w) (w_ext w) (w_eff w) (w_flg w) (w_recalc w) (w_rst w) (w_win w) (w_feat w) (w_root w) (w_cls w) (w_att w) (w_nid w) (w_foc w) (w_prs w) (w_dis w) (w_chk w) (w_hov w) (w_dirty w) (w_rul w) (w_vrs w) (w_cmp w) (w_props w) x (w_anyprop w) (w_active w) (w_sent w) (w_redraw w).
Definition put_anyprop (x : bool) (w : world) : world := mkworld (w_hier w) (w_ord w) (w_sib w) (w_ext w) (w_eff w) (w_flg w) (w_recalc w) (w_rst w) (w_win w) (w_feat w) (w_root w) (w_cls w) (w_att w) (w_nid w) (w_foc w) (w_prs w) (w_dis w) (w_chk w) (w_hov w) (w_dirty w) (w_rul w) (w_vrs w) (w_cmp w) (w_props w) (w_app w) x (w_active w) (w_sent w) (w_redraw w).
Definition put_active (x : bool) (w : world) : world := mkworld (w_hier w) (w_ord w) (w_sib w) (w_ext w) (w_eff w) (w_flg w) (w_recalc w) (w_rst w) (w_win w) (w_feat w) (w_root w) (w_cls w) (w_att w) (w_nid w) (w_foc w) (w_prs w) (w_dis w) (w_chk w) (w_hov w) (w_dirty w) (w_rul w) (w_vrs w) (w_cmp w) (w_props w) (w_app w) (w_anyprop w) x (w_sent w) (w_redraw w).
Definition put_sent (x : list Ev) (w : world) : world := mkworld (w_hier w) (w_ord w) (w_sib w) (w_ext w) (w_eff w) (w_flg w) (w_recalc w) (w_rst w) (w_win w) (w_feat w) (w_root w) (w_cls w) (w_att w) (w_nid w) (w_foc w) (w_prs w) (w_dis w) (w_chk w) (w_hov w) (w_dirty w) (w_rul w) (w_vrs w) (w_cmp w) (w_props w) (w_app w) (w_anyprop w) (w_active w) x (w_redraw w).
Definition put_redraw (x : bool) (w : world) : world := mkworld (w_hier w) (w_ord w) (w_sib w) (w_ext w) (w_eff w) (w_flg w) (w_recalc w) (w_rst w) (w_win w) (w_feat w) (w_root w) (w_cls w) (w_att w) (w_nid w) (w_foc w) (w_prs w) (w_dis w) (w_chk w) (w_hov w) (w_dirty w) (w_rul w) (w_vrs w) (w_cmp w) (w_props w) (w_app w) (w_anyprop w) (w_active w) (w_sent w) x.

(** ** What they compute: arbitrary functions of what they read *)
Record behaviour := mkbehaviour {
  b_sheet_changed : Ext -> Eff -> list node_props -> N; (** nodes whose sheet was modified *)
  b_sheet_cmp : Ext -> Eff -> list node_props -> Cmp -> Cmp;
  b_sheet_flg : N -> Flg -> Flg;
  b_sheet_vrs : N -> Vrs -> Vrs;
  b_theme : Ext -> Win -> Win;
  b_effective : Ext -> Hier -> Eff -> Eff;
  b_effective_touch : Ext -> Hier -> Eff -> N; (** nodes visited, and those with another sheet than before *)
  b_effective_new : Ext -> Hier -> Eff -> N; (** nodes visited, and those with another sheet than before *)
  b_effective_flg : N -> Flg -> Flg;
  b_features : Ext -> Win -> Feat -> Feat;
  b_sorted : Ext -> Ord -> Ord;
  b_siblings : Ext -> Hier -> Ord -> Sib -> Sib;
  b_reset_added : Ext -> N; (** nodes whose NodeProperties are new *)
  b_empty_rest : Rest;
  b_is_root : Ext -> Hier -> Root -> Root;
  b_is_root_touch : Ext -> Hier -> N;
  b_classes : Ext -> Cls -> Cls;
  b_classes_touch : Ext -> N;
  b_attributes : Ext -> Att -> Att;
  b_attributes_touch : Ext -> N;
  b_names : Ext -> Nid -> Nid;
  b_names_touch : Ext -> N;
  b_focus : Ext -> Foc -> Foc;
  b_focus_touch : Ext -> Foc -> N;
  (** nodes where the component appeared, disappeared or changed, and where it now is or says so *)
  b_pressed_touch : Ext -> N;
  b_pressed : Ext -> N;
  b_disabled_touch : Ext -> N;
  b_disabled : Ext -> N;
  b_checked_touch : Ext -> N;
  b_checked : Ext -> N;
  b_hovered_touch : Ext -> N;
  b_hovered : Ext -> N;
  b_interaction_touch : Ext -> N;
  b_interaction_pressed : Ext -> N;
  b_interaction_hovered : Ext -> N;
  b_related : Ext -> Hier -> Ord -> Flg -> N;
  b_changed : Ext -> Hier -> Ord -> Flg -> N -> N -> N -> N; (** reads the two markers and the changed data *)
  b_target : Ext -> Flg -> N;
  b_window : Ext -> Feat -> Flg -> N;
  b_delta_tick : Ext -> list Mot -> list Mot * list Ev;
  b_can_tick : Mot -> bool;
  b_is_active : Mot -> bool;
  (** the systems of a chain that read and write more; they see everything but [w_active] *)
  b_calculate_rul : world -> Rul;
  b_calculate_vrs : world -> Vrs;
  b_calculate_flg : world -> Flg;
  b_calculate_mark : world -> N;
  b_set_values : world -> world;
  b_compute : world -> world;
  b_resolve_anims : world -> world;
  b_set_anim_values : world -> world;
  (** node by node, of everything but the pending events *)
  b_placeholders : world -> nat -> Auto -> list Mot -> Rest -> Rest;
  b_apply_rest : world -> nat -> Auto -> list Mot -> Rest -> Auto * Rest;
  b_apply_cmp : world -> Cmp;
  b_remove_cmp : world -> Cmp;
  b_apply_app : world -> N;
  b_remove_auto : world -> nat -> Auto -> Auto }.
Variable b : behaviour.
Local Notation sheet_changed := (b_sheet_changed b).
Local Notation sheet_cmp := (b_sheet_cmp b).
Local Notation sheet_flg := (b_sheet_flg b).
Local Notation sheet_vrs := (b_sheet_vrs b).
Local Notation theme := (b_theme b).
Local Notation effective := (b_effective b).
Local Notation effective_touch := (b_effective_touch b).
Local Notation effective_new := (b_effective_new b).
Local Notation effective_flg := (b_effective_flg b).
Local Notation features := (b_features b).
Local Notation sorted := (b_sorted b).
Local Notation siblings := (b_siblings b).
Local Notation reset_added := (b_reset_added b).
Local Notation empty_rest := (b_empty_rest b).
Local Notation is_root := (b_is_root b).
Local Notation is_root_touch := (b_is_root_touch b).
Local Notation classes := (b_classes b).
Local Notation classes_touch := (b_classes_touch b).
Local Notation attributes := (b_attributes b).
Local Notation attributes_touch := (b_attributes_touch b).
Local Notation names := (b_names b).
Local Notation names_touch := (b_names_touch b).
Local Notation focus := (b_focus b).
Local Notation focus_touch := (b_focus_touch b).
Local Notation pressed_touch := (b_pressed_touch b).
Local Notation pressed := (b_pressed b).
Local Notation disabled_touch := (b_disabled_touch b).
Local Notation disabled := (b_disabled b).
Local Notation checked_touch := (b_checked_touch b).
Local Notation checked := (b_checked b).
Local Notation hovered_touch := (b_hovered_touch b).
Local Notation hovered := (b_hovered b).
Local Notation interaction_touch := (b_interaction_touch b).
Local Notation interaction_pressed := (b_interaction_pressed b).
Local Notation interaction_hovered := (b_interaction_hovered b).
Local Notation related := (b_related b).
Local Notation changed := (b_changed b).
Local Notation target := (b_target b).
Local Notation window := (b_window b).
Local Notation delta_tick := (b_delta_tick b).
Local Notation can_tick := (b_can_tick b).
Local Notation is_active := (b_is_active b).
Local Notation calculate_rul := (b_calculate_rul b).
Local Notation calculate_vrs := (b_calculate_vrs b).
Local Notation calculate_flg := (b_calculate_flg b).
Local Notation calculate_mark := (b_calculate_mark b).
Local Notation set_values := (b_set_values b).
Local Notation compute := (b_compute b).
Local Notation resolve_anims := (b_resolve_anims b).
Local Notation set_anim_values := (b_set_anim_values b).
Local Notation placeholders := (b_placeholders b).
Local Notation apply_rest := (b_apply_rest b).
Local Notation apply_cmp := (b_apply_cmp b).
Local Notation remove_cmp := (b_remove_cmp b).
Local Notation apply_app := (b_apply_app b).
Local Notation remove_auto := (b_remove_auto b).

(** ** Helpers *)
Definition has (m : N) (n : nat) : bool := N.testbit m (N.of_nat n).
(** [v] at the nodes of [touch], [m] at the others *)
Definition update (touch v m : N) : N := N.lor (N.ldiff m touch) (N.land touch v).
Fixpoint each_from {A} (n : nat) (f : nat -> A -> A) (l : list A) : list A := match l with [] => [] | x :: r => f n x :: each_from (S n) f r end.
Definition each {A} (f : nat -> A -> A) (l : list A) : list A := each_from 0 f l.
Definition mark (m : N) (w : world) : world := put_recalc (N.lor (w_recalc w) m) w.
Definition touch (m : N) (w : world) : world := put_dirty (N.lor (w_dirty w) m) w.
(** components.rs:934-953 *)
Definition reset (p : node_props) : node_props := mkprops (p_auto p) [] empty_rest [].
Definition reset_at (m : N) : list node_props -> list node_props := each (fun n p => if has m n then reset p else p).
(** components.rs:960-1041, systems.rs:1085-1101 *)
Definition tick (e : Ext) (p : node_props) : node_props :=
  if existsb can_tick (p_motions p) then let r := delta_tick e (p_motions p) in mkprops (p_auto p) (fst r) (p_rest p) (p_events p ++ snd r) else p.
(** the world without what cannot be seen: nothing reads [w_active]; and without pending and sent events *)
Definition quiet (w : world) : world := put_active false w.
Definition mute (w : world) : world := put_sent [] (put_props (map (fun p => mkprops (p_auto p) (p_motions p) (p_rest p) []) (w_props w)) (put_active false w)).
(** a system of a chain: it does not touch [w_active], nor what lies outside *)
Definition seeing (f : world -> world) (w : world) : world := put_ext (w_ext w) (put_active (w_active w) (f (quiet w))).

(** ** Running a system *)
Definition run (s : system) (w : world) : world :=
  let e := w_ext w in
  match s with
  (** systems.rs:542-612 *)
  | SheetChanged => let m := sheet_changed e (w_eff w) (w_props w) in
      mark m (put_cmp (sheet_cmp e (w_eff w) (w_props w) (w_cmp w)) (put_flg (sheet_flg m (w_flg w)) (put_vrs (sheet_vrs m (w_vrs w)) (put_props (reset_at m (w_props w)) w))))
  (** 383-387 *)
  | ClearGlobal => put_anyprop false (put_active false w)
  (** 184-199 *)
  | WindowTheme => put_win (theme e (w_win w)) w
  (** 132-182 *)
  | Effective => mark (effective_touch e (w_hier w) (w_eff w)) (touch (effective_touch e (w_hier w) (w_eff w))
      (put_flg (effective_flg (effective_new e (w_hier w) (w_eff w)) (w_flg w)) (put_eff (effective e (w_hier w) (w_eff w)) w)))
  (** 201-217 *)
  | WindowFeatures => put_feat (features e (w_win w) (w_feat w)) w
  (** 53-90 *)
  | SortPseudo => put_ord (sorted e (w_ord w)) w
  (** 92-130 *)
  | SyncSiblings => put_sib (siblings e (w_hier w) (w_ord w) (w_sib w)) w
  (** 39-51 *)
  | ResetProps => let m := N.lor (w_rst w) (reset_added e) in mark m (put_rst (N.ldiff (w_rst w) m) (put_props (reset_at m (w_props w)) w))
  (** 219-243 *)
  | IsRoot => touch (is_root_touch e (w_hier w)) (put_root (is_root e (w_hier w) (w_root w)) w)
  (** 245-252 *)
  | Classes => touch (classes_touch e) (put_cls (classes e (w_cls w)) w)
  (** 254-260 *)
  | Attributes => touch (attributes_touch e) (put_att (attributes e (w_att w)) w)
  (** 262-282 *)
  | Names => touch (names_touch e) (put_nid (names e (w_nid w)) w)
  (** 284-322 *)
  | SyncFocus => touch (focus_touch e (w_foc w)) (put_foc (focus e (w_foc w)) w)
  (** 324-349 *)
  | SyncPressed => touch (pressed_touch e) (put_prs (update (pressed_touch e) (pressed e) (w_prs w)) w)
  | SyncDisabled => touch (disabled_touch e) (put_dis (update (disabled_touch e) (disabled e) (w_dis w)) w)
  | SyncChecked => touch (checked_touch e) (put_chk (update (checked_touch e) (checked e) (w_chk w)) w)
  (** 351-358 *)
  | SyncHovered => touch (hovered_touch e) (put_hov (update (hovered_touch e) (hovered e) (w_hov w)) w)
  (** 360-368 *)
  | SyncInteraction => touch (interaction_touch e) (put_prs (update (interaction_touch e) (interaction_pressed e) (w_prs w)) (put_hov (update (interaction_touch e) (interaction_hovered e) (w_hov w)) w))
  (** 445-482 *)
  | MarkRelated => mark (related e (w_hier w) (w_ord w) (w_flg w)) w
  (** 484-540 *)
  | MarkChanged => mark (changed e (w_hier w) (w_ord w) (w_flg w) (w_recalc w) (w_rst w) (w_dirty w)) w
  (** 430-443 *)
  | MarkTarget => mark (target e (w_flg w)) w
  (** 389-428 *)
  | MarkWindow => mark (window e (w_feat w) (w_flg w)) w
  (** 755-839 reads no NodeProperties and no global change detection *)
  | Calculate => let v := put_props [] (put_anyprop false (quiet w)) in mark (calculate_mark v) (put_rul (calculate_rul v) (put_vrs (calculate_vrs v) (put_flg (calculate_flg v) w)))
  (** 842-911, 913-1083 *)
  | SetValues => seeing set_values w
  | Compute => seeing compute w
  | ResolveAnims => seeing resolve_anims w
  | SetAnimValues => seeing set_anim_values w
  (** 1126-1176 *)
  | Placeholders => put_props (each (fun n p => mkprops (p_auto p) (p_motions p) (placeholders (mute w) n (p_auto p) (p_motions p) (p_rest p)) (p_events p)) (w_props w)) w
  (** 1178-1277 and the observer 1279-1289 *)
  | Apply => put_app (apply_app (mute w)) (put_cmp (apply_cmp (mute w))
      (put_props (each (fun n p => let r := apply_rest (mute w) n (p_auto p) (p_motions p) (p_rest p) in mkprops (fst r) (p_motions p) (snd r) (p_events p)) (w_props w)) w))
  (** 1291-1335, only if a property value changed *)
  | AutoRemove => if w_anyprop w then put_cmp (remove_cmp (mute w)) (put_props (each (fun n p => mkprops (remove_auto (mute w) n (p_auto p)) (p_motions p) (p_rest p) (p_events p)) (w_props w)) w) else w
  (** 1114-1124 *)
  | Redraw => put_redraw (w_redraw w || existsb (fun p => existsb can_tick (p_motions p)) (w_props w)) w
  (** 1085-1101 *)
  | Tick => put_active (w_active w || existsb (fun p => existsb is_active (p_motions (tick e p))) (w_props w)) (put_props (map (tick e) (w_props w)) w)
  (** 1103-1112 *)
  | EmitEvents => put_sent (w_sent w ++ flat_map p_events (w_props w)) (put_props (map (fun p => mkprops (p_auto p) (p_motions p) (p_rest p) []) (w_props w)) w)
  end.
Fixpoint run_all (l : list system) (w : world) : world := match l with [] => w | s :: r => run_all r (run s w) end.
End World.
Arguments w_hier {k}. Arguments put_hier {k}.
Arguments w_ord {k}. Arguments put_ord {k}.
Arguments w_sib {k}. Arguments put_sib {k}.
Arguments w_ext {k}. Arguments put_ext {k}.
Arguments w_eff {k}. Arguments put_eff {k}.
Arguments w_flg {k}. Arguments put_flg {k}.
Arguments w_recalc {k}. Arguments put_recalc {k}.
Arguments w_rst {k}. Arguments put_rst {k}.
Arguments w_win {k}. Arguments put_win {k}.
Arguments w_feat {k}. Arguments put_feat {k}.
Arguments w_root {k}. Arguments put_root {k}.
Arguments w_cls {k}. Arguments put_cls {k}.
Arguments w_att {k}. Arguments put_att {k}.
Arguments w_nid {k}. Arguments put_nid {k}.
Arguments w_foc {k}. Arguments put_foc {k}.
Arguments w_prs {k}. Arguments put_prs {k}.
Arguments w_dis {k}. Arguments put_dis {k}.
Arguments w_chk {k}. Arguments put_chk {k}.
Arguments w_hov {k}. Arguments put_hov {k}.
Arguments w_dirty {k}. Arguments put_dirty {k}.
Arguments w_rul {k}. Arguments put_rul {k}.
Arguments w_vrs {k}. Arguments put_vrs {k}.
Arguments w_cmp {k}. Arguments put_cmp {k}.
Arguments w_props {k}. Arguments put_props {k}.
Arguments w_app {k}. Arguments put_app {k}.
Arguments w_anyprop {k}. Arguments put_anyprop {k}.
Arguments w_active {k}. Arguments put_active {k}.
Arguments w_sent {k}. Arguments put_sent {k}.
Arguments w_redraw {k}. Arguments put_redraw {k}.
Arguments p_auto {k}. Arguments p_motions {k}. Arguments p_rest {k}. Arguments p_events {k}. Arguments mkprops {k}. Arguments mark {k}. Arguments touch {k}. Arguments quiet {k}. Arguments mute {k}. Arguments seeing {k}.
Arguments tick {k}. Arguments reset {k}. Arguments reset_at {k}. Arguments run {k}. Arguments run_all {k}.

(** ** The order constraints: lib.rs:386-405, 424-444 *)
Definition system_eqb (a b : system) : bool := if (ltac:(decide equality) : {a = b} + {a <> b}) then true else false.
(** the set a system is in, counted along the chain; [None]: not in the chain *)
Definition stage (s : system) : option nat :=
  match s with
  | SheetChanged | ClearGlobal | WindowTheme => Some 0
  | Effective | WindowFeatures | SortPseudo | SyncSiblings | ResetProps => Some 1
  | IsRoot | Classes | Attributes | SyncPressed | SyncDisabled | SyncChecked | SyncHovered | SyncInteraction | Names | SyncFocus => Some 2
  | MarkRelated | MarkChanged | MarkTarget | MarkWindow => Some 3
  | Calculate => Some 4
  | SetValues => Some 5
  | Compute => Some 6
  | ResolveAnims => Some 7
  | SetAnimValues => Some 8
  | Placeholders | Apply | AutoRemove => Some 9
  | Redraw => Some 10
  | Tick | EmitEvents => None
  end.
(** chains inside a set *)
Definition chained (a b : system) : bool :=
  match a, b with
  | SortPseudo, SyncSiblings | MarkRelated, (MarkChanged | MarkTarget | MarkWindow) | MarkChanged, (MarkTarget | MarkWindow) | Placeholders, (Apply | AutoRemove) | Apply, AutoRemove => true
  | _, _ => false
  end.
Definition before (a b : system) : bool :=
  match stage a, stage b with
  | Some n, Some m => (n <? m) || chained a b
  | Some n, None => match b with Tick => n =? 0 | _ => n <=? 8 end
  | None, Some m => match a with Tick => 5 <=? m | _ => false end
  | None, None => match a, b with Tick, EmitEvents => true | _, _ => false end
  end.
