-Q theories Verif
theories/Base.v
theories/Layers.v
theories/LayersSpec.v
theories/LayersProofs.v
theories/Prop_Layers.v
theories/Tree.v
theories/TreeSpec.v
theories/TreeProofs.v
theories/Vars.v
theories/VarsSpec.v
theories/VarsProofs.v
theories/Media.v
theories/MediaSpec.v
theories/MediaProofs.v
theories/Prop_Vars.v
theories/Prop_Media.v
theories/Prop_Tree.v
theories/Cascade.v
theories/CascadeSpec.v
theories/CascadeProofs.v
theories/CascadeProofs2.v
theories/CascadeProofs3.v
theories/CascadeProofs4.v
theories/Prop_Cascade.v
theories/Animation.v
theories/AnimationSpec.v
theories/AnimationProofs.v
theories/AnimationProofs2.v
theories/AnimationProofs3.v
theories/AnimationSample.v
theories/AnimationProofs4.v
theories/Prop_Animation.v
theories/Transition.v
theories/TransitionFloat.v
theories/TransitionSpec.v
theories/TransitionProofs.v
theories/Prop_Transition.v
theories/PropMap.v
theories/PropMapSpec.v
theories/PropMapProofs.v
theories/Prop_PropMap.v
theories/Inherit.v
theories/InheritSpec.v
theories/InheritProofs.v
theories/Prop_Inherit.v
theories/Registry.v
theories/RegistrySpec.v
theories/RegistryProofs.v
theories/Prop_Registry.v
theories/NodeProps.v
theories/NodePropsSpec.v
theories/NodePropsProofs.v
theories/NodePropsProofs2.v
theories/Prop_NodeProps.v
theories/NodeAnimsSpec.v
theories/NodeAnimsProofs.v
theories/Prop_NodeAnims.v
theories/SheetInherit.v
theories/SheetInheritSpec.v
theories/SheetInheritProofs.v
theories/Prop_SheetInherit.v
theories/Siblings.v
theories/SiblingsSpec.v
theories/SiblingsProofs.v
theories/Prop_Siblings.v
theories/ClassList.v
theories/ClassListSpec.v
theories/Prop_ClassList.v
theories/Focus.v
theories/FocusSpec.v
theories/Prop_Focus.v
theories/Invalidation.v
theories/InvalidationSpec.v
theories/InvalidationProofs.v
theories/Prop_Invalidation.v
theories/AutoInsert.v
theories/AutoInsertSpec.v
theories/AutoInsertProofs.v
theories/Prop_AutoInsert.v
theories/AnimProps.v
theories/AnimPropsSpec.v
theories/AnimPropsProofs.v
theories/Prop_AnimProps.v
theories/InlineStyle.v
theories/InlineStyleSpec.v
theories/Prop_InlineStyle.v
theories/Nesting.v
theories/NestingSpec.v
theories/NestingProofs.v
theories/Prop_Nesting.v
theories/Calc.v
theories/CalcSpec.v
theories/CalcProofs.v
theories/Prop_Calc.v
theories/Shorthand.v
theories/ShorthandSpec.v
theories/Prop_Shorthand.v
theories/Interp.v
theories/InterpSpec.v
theories/InterpProofs.v
theories/Prop_Interp.v
theories/Keyframes.v
theories/KeyframesSpec.v
theories/KeyframesProofs.v
theories/KeyframesProofs2.v
theories/KeyframesProofs3.v
theories/KeyframesProofs4.v
theories/Prop_Keyframes.v
theories/Easing.v
theories/EasingSpec.v
theories/EasingProofs.v
theories/Prop_Easing.v
theories/VarText.v
theories/VarTextSpec.v
theories/VarTextProofs.v
theories/VarTextProofs2.v
theories/VarTextProofs3.v
theories/VarTextProofs4.v
theories/VarTextProofs5.v
theories/Prop_VarText.v
theories/SheetText.v
theories/SheetTextProofs.v
theories/SheetTextSpec.v
theories/SheetTextProofs2.v
theories/SheetTextProofs3.v
theories/SheetTextProofs4.v
theories/SheetTextProofs5.v
theories/Prop_SheetText.v
theories/SheetTextProofs6.v
theories/AnimParse.v
theories/AnimParseSpec.v
theories/AnimParseProofs1.v
theories/AnimParseProofs2.v
theories/AnimParseProofs3.v
theories/Prop_AnimParse.v
theories/NodeData.v
theories/NodeDataSpec.v
theories/NodeDataProofs.v
theories/Prop_NodeData.v
theories/MediaDeps.v
theories/MediaDepsSpec.v
theories/MediaDepsProofs.v
theories/Prop_MediaDeps.v
theories/Structural.v
theories/StructuralSpec.v
theories/StructuralProofs.v
theories/Prop_Structural.v
theories/VarFlow.v
theories/VarFlowSpec.v
theories/VarFlowProofs.v
theories/Prop_VarFlow.v
theories/ValueParse.v
theories/ValueParseSpec.v
theories/ValueParseProofs.v
theories/Prop_ValueParse.v
theories/Pipeline.v
theories/PipelineSpec.v
theories/PipelineProofs.v
theories/Prop_Pipeline.v
theories/Placeholder.v
theories/PlaceholderSpec.v
theories/PlaceholderProofs.v
theories/Prop_Placeholder.v
theories/MoreValues.v
theories/MoreValuesSpec.v
theories/MoreValuesProofs.v
theories/Prop_MoreValues.v
theories/Gradient.v
theories/GradientSpec.v
theories/GradientProofs.v
theories/GradientBodyProofs.v
theories/GradientLineProofs.v
theories/Prop_Gradient.v
theories/Report.v
theories/ReportSpec.v
theories/ReportProofs.v
theories/LoadErrors.v
theories/LoadErrorsSpec.v
theories/LoadErrorsProofs.v
theories/LoadErrorsProofs2.v
theories/Prop_Report.v
theories/LoadKeptSpec.v
theories/LoadKeptProofs.v
theories/Schedule.v
theories/ScheduleSpec.v
theories/ScheduleProofs.v
theories/Prop_Schedule.v
theories/Reflect.v
theories/ReflectSpec.v
theories/ReflectProofs.v
theories/Prop_Reflect.v
theories/ComponentTable.v
theories/ComponentTableProofs.v
theories/ComponentTableSpec.v
theories/Prop_ComponentTable.v
theories/Prop_ReflectRefine.v
theories/AnimFlow.v
theories/AnimFlowSpec.v
theories/AnimFlowProofs.v
theories/Prop_AnimFlow.v
theories/Color.v
theories/ColorSpec.v
theories/ColorProofs.v
theories/Prop_Color.v
theories/Matching.v
theories/MatchingSpec.v
theories/MatchingProofs.v
theories/Prop_Matching.v
theories/Specificity.v
theories/SpecificitySpec.v
theories/SpecificityProofs.v
theories/Prop_Specificity.v
theories/Whole.v
theories/WholeSpec.v
theories/WholeProofs.v
theories/Prop_Whole.v
theories/Follow.v
theories/FollowSpec.v
theories/FollowProofs.v
theories/Prop_Follow.v
theories/Live.v
theories/LiveSpec.v
theories/LiveProofs.v
theories/Prop_Live.v
theories/HeadingSpec.v
theories/HeadingProofs.v
theories/Prop_Heading.v
theories/Animated.v
theories/AnimatedSpec.v
theories/AnimatedProofs.v
theories/Prop_Animated.v
theories/ReflectValue.v
theories/ReflectValueSpec.v
theories/ReflectValueProofs.v
theories/Prop_ReflectValue.v
theories/SelText.v
theories/SelTextSpec.v
theories/SelTextProofs.v
theories/SelTextProofs2.v
theories/SelTextProofs3.v
theories/Prop_SelText.v
theories/SheetSel.v
theories/SheetSelProofs.v
theories/Prop_SheetSel.v
theories/SheetCascade.v
theories/SheetCascadeSpec.v
theories/SheetCascadeProofs.v
theories/SheetCascadeProofs2.v
theories/SheetCascadeProofs3.v
theories/Prop_SheetCascade.v
theories/SheetWhole.v
theories/SheetWholeSpec.v
theories/SheetWholeProofs.v
theories/SheetWholeProofs2.v
theories/SheetWholeProofs3.v
theories/Prop_SheetWhole.v
theories/PseudoLife.v
theories/PseudoLifeSpec.v
theories/PseudoLifeProofs.v
theories/Prop_PseudoLife.v
