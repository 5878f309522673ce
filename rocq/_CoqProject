-Q theories Verif
theories/Model_Petri.v
theories/Spec_Petri.v
theories/Proofs_Petri.v
theories/Proofs_Petri2.v
theories/Proofs_Petri3.v
theories/Props_Petri.v
theories/Model_Align.v
theories/Spec_Align.v
theories/Proofs_Dijkstra.v
theories/Proofs_Sync.v
theories/Props_Align.v
theories/Model_AStar.v
theories/Spec_AStar.v
theories/Proofs_AStar.v
theories/Model_AlignLog.v
theories/Proofs_AlignLog.v
theories/Props_Align2.v
theories/Model_Lev.v
theories/Spec_Lev.v
theories/Proofs_Lev.v
theories/Props_Lev.v
theories/Model_Tree.v
theories/Spec_Tree.v
theories/Proofs_Shuffle.v
theories/Proofs_Fold.v
theories/Proofs_Tree2.v
theories/Model_TreeFP.v
theories/Spec_TreeFP.v
theories/Proofs_TreeFP.v
theories/Props_Tree.v
theories/Model_Parse.v
theories/Spec_Parse.v
theories/Proofs_Parse.v
theories/Props_Parse.v
theories/Model_TreeNet.v
theories/Proofs_Block.v
theories/Proofs_Block2.v
theories/Proofs_Block3.v
theories/Proofs_Block4.v
theories/Proofs_TreeNet.v
theories/Proofs_Reduce.v
theories/Proofs_TreeNet2.v
theories/Proofs_TreeNet3.v
theories/Proofs_TreeNet4.v
theories/Spec_TreeNet.v
theories/Props_TreeNet.v
theories/Model_Dict.v
theories/Proofs_Dict.v
theories/Model_Dfg.v
theories/Spec_Dfg.v
theories/Proofs_Dfg.v
theories/Props_Dfg.v
theories/Model_Live.v
theories/Proofs_Live.v
theories/Props_Live.v
theories/Model_Stream.v
theories/Spec_Stream.v
theories/Proofs_Stream.v
theories/Spec_Temporal.v
theories/Proofs_Temporal.v
theories/Proofs_Temporal2.v
theories/Props_Stream.v
theories/Model_Skel.v
theories/Spec_Skel.v
theories/Proofs_Skel.v
theories/Proofs_Skel2.v
theories/Props_Skel.v
theories/Model_Declare.v
theories/Spec_Declare.v
theories/Proofs_Declare.v
theories/Props_Declare.v
theories/Model_Graph.v
theories/Spec_Graph.v
theories/Proofs_Graph.v
theories/Model_DfgFilter.v
theories/Spec_DfgFilter.v
theories/Proofs_DfgFilter.v
theories/Proofs_DfgFilter2.v
theories/Props_DfgFilter.v
theories/Model_IM.v
theories/Spec_IM.v
theories/Proofs_IM1.v
theories/Proofs_IM2.v
theories/Proofs_IM3.v
theories/Proofs_IM4.v
theories/Proofs_IM5.v
theories/Proofs_IM6.v
theories/Proofs_IM7.v
theories/Proofs_IM8.v
theories/Proofs_IM9.v
theories/Proofs_IM10.v
theories/Props_IM.v
theories/Model_Filter.v
theories/Spec_Filter.v
theories/Proofs_Filter.v
theories/Props_Filter.v
theories/Spec_Filter2.v
theories/Proofs_Filter2.v
theories/Proofs_Filter3.v
theories/Proofs_Filter4.v
theories/Props_Filter2.v
theories/Model_FilterDf.v
theories/Spec_FilterDf.v
theories/Proofs_FilterDf.v
theories/Proofs_FilterDf2.v
theories/Proofs_FilterDf3.v
theories/Proofs_FilterDf4.v
theories/Props_FilterDf.v
theories/Spec_IMCut.v
theories/Proofs_IMCut.v
theories/Proofs_IMCut2.v
theories/Proofs_IMCut3.v
theories/Props_IMCut.v
theories/Model_Replay.v
theories/Spec_Replay.v
theories/Proofs_Replay1.v
theories/Proofs_Replay2.v
theories/Proofs_Replay3.v
theories/Proofs_Replay4.v
theories/Proofs_Replay5.v
theories/Proofs_Replay6.v
theories/Props_Replay.v
theories/Model_DfgNet.v
theories/Spec_DfgNet.v
theories/Proofs_DfgNet.v
theories/Props_DfgNet.v
theories/Model_DfgAlign.v
theories/Spec_DfgAlign.v
theories/Proofs_DfgAlign.v
theories/Proofs_DfgAlign2.v
theories/Proofs_DfgAlign3.v
theories/Props_DfgAlign.v
theories/Model_Playout.v
theories/Proofs_Playout.v
theories/Proofs_Playout2.v
theories/Proofs_Playout3.v
theories/Props_Playout.v
theories/Model_DfgFile.v
theories/Proofs_DfgFile.v
theories/Props_DfgFile.v
theories/Model_Bottomup.v
theories/Proofs_Bottomup.v
theories/Model_Footprints.v
theories/Proofs_Footprints.v
theories/Proofs_Footprints2.v
theories/Props_Footprints.v
theories/Model_Alpha.v
theories/Spec_Alpha.v
theories/Proofs_Alpha.v
theories/Props_Alpha.v
theories/Model_TreePlayout.v
theories/Proofs_TreePlayout.v
theories/Props_TreePlayout.v
theories/Proofs_Reduce2.v
theories/Props_Reduce.v
theories/Model_LessMem.v
theories/Spec_LessMem.v
theories/Proofs_LessMem.v
theories/Proofs_LessMem2.v
theories/Props_LessMem.v
theories/Model_Precision.v
theories/Spec_Precision.v
theories/Proofs_Precision1.v
theories/Proofs_Precision2.v
theories/Proofs_Precision3.v
theories/Proofs_Precision4.v
theories/Props_Precision.v
theories/Model_Eval.v
theories/Spec_Eval.v
theories/Proofs_Eval.v
theories/Props_Eval.v
theories/Proofs_Po.v
theories/Model_Powl.v
theories/Spec_Powl.v
theories/Proofs_Powl1.v
theories/Proofs_Powl2.v
theories/Proofs_Powl3.v
theories/Proofs_Powl4.v
theories/Props_Powl.v
theories/Model_PowlSimplify.v
theories/Spec_PowlSimplify.v
theories/Proofs_PowlS1.v
theories/Proofs_PowlS2.v
theories/Proofs_PowlS3.v
theories/Proofs_PowlS4.v
theories/Props_PowlSimplify.v
theories/Model_Interval.v
theories/Spec_Interval.v
theories/Proofs_Interval1.v
theories/Proofs_Interval2.v
theories/Proofs_Interval3.v
theories/Props_Interval.v
theories/Model_Ocel.v
theories/Spec_Ocel.v
theories/Proofs_Ocel1.v
theories/Proofs_Ocel2.v
theories/Proofs_Ocel3.v
theories/Props_Ocel.v
theories/Props_Ocel2.v
theories/Model_Trie.v
theories/Spec_Trie.v
theories/Proofs_Trie.v
theories/Props_Trie.v
theories/Model_Tsys.v
theories/Spec_Tsys.v
theories/Proofs_Tsys.v
theories/Props_Tsys.v
theories/Model_Wfnet.v
theories/Spec_Wfnet.v
theories/Props_Wfnet.v
theories/Model_Murata.v
theories/Spec_Murata.v
theories/Proofs_Murata.v
theories/Props_Murata.v
theories/Model_Decomp.v
theories/Spec_Decomp.v
theories/Proofs_Decomp.v
theories/Proofs_Decomp2.v
theories/Props_Decomp.v
theories/Model_Pnml.v
theories/Spec_Pnml.v
theories/Props_Pnml.v
theories/Model_Ptml.v
theories/Spec_Ptml.v
theories/Proofs_Ptml.v
theories/Props_Ptml.v
theories/Model_Hours.v
theories/Spec_Hours.v
theories/Props_Hours.v
theories/Model_Sna.v
theories/Spec_Sna.v
theories/Proofs_Sna.v
theories/Props_Sna.v
theories/Model_Ocdfg.v
theories/Spec_Ocdfg.v
theories/Proofs_Ocdfg.v
theories/Props_Ocdfg.v
theories/Model_Roles.v
theories/Spec_Roles.v
theories/Proofs_Roles.v
theories/Props_Roles.v
theories/Model_DeclareDisc.v
theories/Spec_DeclareDisc.v
theories/Proofs_DeclareDisc.v
theories/Proofs_DeclareDisc2.v
theories/Proofs_DeclareDisc3.v
theories/Proofs_DeclareDisc4.v
theories/Props_DeclareDisc.v
theories/Model_Xes.v
theories/Spec_Xes.v
theories/Proofs_Xes1.v
theories/Proofs_Xes2.v
theories/Proofs_Xes3.v
theories/Props_Xes.v
theories/Model_Heu.v
theories/Spec_Heu.v
theories/Proofs_Heu1.v
theories/Proofs_Heu2.v
theories/Proofs_Heu3.v
theories/Props_Heu.v
theories/Model_ToTree.v
theories/Proofs_ToTree1.v
theories/Proofs_ToTree2.v
theories/Proofs_ToTree3.v
theories/Proofs_ToTree4.v
theories/Proofs_ToTree5.v
theories/Proofs_ToTree6.v
theories/Proofs_ToTree7.v
theories/Proofs_ToTree8.v
theories/Proofs_ToTree9.v
theories/Proofs_ToTree10.v
theories/Proofs_ToTree11.v
theories/Props_ToTree.v
theories/Model_TreeUtil.v
theories/Spec_TreeUtil.v
theories/Proofs_TreeUtil.v
theories/Proofs_TreeReduce.v
theories/Props_TreeUtil.v
theories/Model_Bpmn.v
theories/Spec_Bpmn.v
theories/Proofs_Bpmn.v
theories/Props_Bpmn.v
theories/Model_ToBpmn.v
theories/Spec_ToBpmn.v
theories/Proofs_ToBpmn1.v
theories/Proofs_ToBpmn2.v
theories/Proofs_ToBpmn3.v
theories/Props_ToBpmn.v
theories/Spec_DfgPlay.v
theories/Model_DfgPlay.v
theories/Proofs_DfgPlay1.v
theories/Proofs_DfgPlay2.v
theories/Proofs_DfgPlay3.v
theories/Props_DfgPlay.v
theories/Model_LogConv.v
theories/Spec_LogConv.v
theories/Proofs_LogConv1.v
theories/Proofs_LogConv2.v
theories/Props_LogConv.v
theories/Model_Batches.v
theories/Spec_Batches.v
theories/Proofs_Batches.v
theories/Props_Batches.v
theories/Model_Lifecycle.v
theories/Spec_Lifecycle.v
theories/Proofs_Lifecycle1.v
theories/Proofs_Lifecycle2.v
theories/Proofs_Lifecycle3.v
theories/Props_Lifecycle.v
theories/Model_Encode.v
theories/Spec_Encode.v
theories/Proofs_Encode.v
theories/Props_Encode.v
theories/Model_Sample.v
theories/Spec_Sample.v
theories/Proofs_Sample.v
theories/Props_Sample.v
theories/Model_Emd.v
theories/Spec_Emd.v
theories/Proofs_Emd1.v
theories/Proofs_Emd2.v
theories/Proofs_Emd3.v
theories/Props_Emd.v
theories/Spec_Passed.v
theories/Model_Passed.v
theories/Proofs_Passed.v
theories/Props_Passed.v
theories/Model_Rel.v
theories/Spec_Rel.v
theories/Proofs_Rel.v
theories/Props_Rel.v
