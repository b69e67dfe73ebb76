-Q theories Verif
theories/M_Ast.v
theories/M_Lexer.v
theories/M_Parser.v
theories/S_LTL.v
theories/L_Lexer.v
theories/M_Base.v
theories/M_Spec.v
theories/M_Gr1.v
theories/L_Parser.v
theories/L_Template.v
theories/L_Gr1.v
theories/S_Gr1.v
theories/L_LTL.v
theories/L_Gr1Main.v
theories/T_Gr1.v
theories/S_Syntax.v
theories/L_RoundTrip.v
theories/L_ParseWf.v
theories/T_Syntax.v
theories/M_Split.v
theories/S_Split.v
theories/L_Split.v
theories/T_Split.v
theories/L_Text.v
theories/M_Form.v
theories/S_Form.v
theories/L_Form.v
theories/T_Form.v
theories/M_Tree.v
theories/L_Tree.v
theories/S_Tree.v
theories/L_Subst.v
theories/T_Subst.v
theories/L_Dec.v
theories/L_Encode.v
theories/T_Encode.v
theories/M_Python.v
theories/S_Python.v
theories/L_Python.v
theories/T_Python.v
theories/M_Gr1c.v
theories/S_Gr1c.v
theories/L_Gr1c.v
theories/T_Gr1c.v
theories/M_Synth.v
theories/L_Den.v
theories/S_Synth.v
theories/L_Synth.v
theories/L_Synth2.v
theories/L_Synth3.v
theories/L_Synth4.v
theories/L_Synth5.v
theories/T_Synth.v
theories/M_Dep.v
theories/L_Dep.v
theories/T_Dep.v
theories/M_Dict.v
theories/M_Graph.v
theories/L_Dict.v
theories/T_Dict.v
theories/L_Graph.v
theories/T_Graph.v
theories/T_Deadends.v
theories/M_Set.v
theories/T_Set.v
theories/M_Machine.v
theories/S_Run.v
theories/L_Build.v
theories/L_Machine.v
theories/T_Reaction.v
theories/T_Convert.v
theories/T_Moore.v
theories/M_Strategy.v
theories/T_Determinize.v
theories/S_Strategy.v
theories/T_Strategy.v
theories/M_Fts.v
theories/M_Product.v
theories/S_Product.v
theories/T_Fts.v
theories/T_Product.v
theories/M_Compose.v
theories/S_Compose.v
theories/L_Compose.v
theories/T_Compose.v
theories/M_Simu.v
theories/S_Simu.v
theories/T_Simu.v
theories/M_Cost.v
theories/S_Cost.v
theories/L_Cost.v
theories/T_Cost.v
theories/M_Dijkstra.v
theories/S_Dijkstra.v
theories/T_Dijkstra.v
theories/M_Prio.v
theories/T_Prio.v
theories/M_Func.v
theories/T_Func.v
theories/M_Mvp.v
theories/S_Mvp.v
theories/T_Mvp.v
theories/M_Grid.v
theories/S_Grid.v
theories/T_Reach.v
theories/T_Grid.v
theories/T_GridText.v
theories/M_LtlFile.v
theories/M_GridSpec.v
theories/T_LtlFile.v
theories/T_GridSpec.v
theories/M_Slugs.v
theories/M_Part.v
theories/T_Part.v
theories/T_Prop2part.v
theories/T_Refine.v
theories/M_Parity.v
theories/T_Parity.v
theories/M_PyCase.v
theories/S_PyCase.v
theories/L_PyCase.v
theories/T_PyCase.v
theories/L_Sum.v
theories/M_Feas.v
theories/S_Feas.v
theories/L_Feas.v
theories/T_Feas.v
theories/M_Horizon.v
theories/L_FM.v
theories/T_Horizon.v
theories/M_Discretize.v
theories/L_Discretize.v
theories/L_Ts.v
theories/T_Discretize.v
theories/T_Abstract.v
theories/M_Verify.v
theories/T_Verify.v
theories/M_Dual.v
theories/T_Dual.v
theories/T_Dual2.v
theories/T_Dual3.v
theories/M_Ltl2ba.v
theories/S_Never.v
theories/L_Ltl2ba.v
theories/T_Ltl2ba.v
theories/T_Ltl2ba2.v
theories/M_Promela.v
theories/S_Promela.v
theories/L_Promela.v
theories/T_Promela.v
theories/T_Promela2.v
theories/M_Switched.v
theories/L_Switched.v
theories/T_Switched.v
theories/M_Parallel.v
theories/T_Parallel.v
theories/L_LP.v
theories/M_Control.v
theories/M_Simulate.v
theories/L_Control.v
theories/T_Control.v
theories/T_Simulate.v
theories/M_Hybrid.v
theories/T_Hybrid.v
theories/M_Session.v
theories/M_GrXml.v
theories/M_GridGen.v
theories/T_Session.v
theories/T_GrXml.v
theories/T_GridGen.v
theories/M_Trolls.v
theories/T_Trolls.v
theories/M_Runs.v
theories/T_Runs.v
theories/M_FullNames.v
theories/T_FullNames.v
theories/M_SubValues.v
theories/T_SubValues.v
theories/M_Mask.v
theories/T_Mask.v
theories/M_Automata.v
theories/T_Automata.v
theories/M_Ppp.v
theories/T_Ppp.v
theories/M_Synthesize.v
theories/S_Synthesize.v
theories/L_Synthesize.v
theories/T_Synthesize.v
theories/T_Synthesize2.v
theories/M_Solvers.v
theories/S_Solvers.v
theories/T_Solvers.v
theories/T_Solvers2.v
theories/T_Solvers3.v
theories/T_Slugs.v
theories/M_Slugsin.v
theories/M_Storm.v
theories/S_Storm.v
theories/S_Storm2.v
theories/L_Storm.v
theories/T_Storm.v
theories/T_Storm2.v
theories/T_Storm3.v
theories/T_Storm4.v
theories/S_Slugsin.v
theories/L_Slugsin.v
theories/T_Slugsin.v
theories/T_Slugsin2.v
theories/M_Lang.v
theories/S_Lang.v
theories/L_Lang.v
theories/T_Lang.v
theories/T_Lang2.v
theories/M_Scxml.v
theories/T_Scxml.v
theories/M_Game.v
theories/T_Game.v
theories/M_Spin.v
theories/T_Spin.v
theories/M_Lbt.v
theories/T_Lbt.v
