-Q theories Verif
theories/Base.v
theories/Core_Model.v
theories/Literal_Model.v
theories/Literal_Proofs.v
theories/Prop_Literal.v
theories/Analysis_Model.v
theories/Bool_Model.v
theories/Solver_Model.v
theories/Spec_Sat.v
theories/Sat_Base.v
theories/Sat_Inv.v
theories/Sat_Bcp.v
theories/Sat_Trail.v
theories/Sat_Bcp2.v
theories/Sat_Prop.v
theories/Subsumption_Proofs.v
theories/Sort_Proofs.v
theories/Sat_Analysis.v
theories/Sat_Analysis2.v
theories/Sat_Main.v
theories/Sat_Term.v
theories/Order_Model.v
theories/Sat_Thms.v
theories/Order_Proofs.v
theories/Sat_Wrap.v
theories/Sat_Examples.v
theories/Prop_Sat.v
theories/Spec_Order.v
theories/Queue_Model.v
theories/Spec_Queue.v
theories/Queue_Proofs.v
theories/Trail_Model.v
theories/Spec_Trail.v
theories/Trail_Proofs.v
theories/Gvsids_Model.v
theories/Spec_Gvsids.v
theories/Gvsids_Proofs.v
theories/Prop_Order.v
theories/Prop_Trail.v
theories/Rational_Model.v
theories/Spec_Rational.v
theories/Rational_Proofs.v
theories/Rational_Proofs2.v
theories/Rational_Proofs3.v
theories/Prop_Rational.v
theories/Lincons_Model.v
theories/Spec_Lincons.v
theories/Lincons_Proofs.v
theories/Lincons_Proofs2.v
theories/Prop_Lincons.v
theories/Lra_Model.v
theories/Spec_Lra.v
theories/Lra_Fm.v
theories/Lra_Bounds.v
theories/Lra_Hist.v
theories/Lra_Steps.v
theories/Lra_Keep.v
theories/Lra_Good.v
theories/Lra_Good2.v
theories/Lra_Range.v
theories/Lra_Elim.v
theories/Lra_Confl.v
theories/Lra_Examples.v
theories/Lra_Examples2.v
theories/Prop_Lra.v
theories/Prop_Lra2.v
theories/Prop_Lra3.v
theories/Spec_Theory.v
theories/Theory_Inv.v
theories/Theory_Strict.v
theories/Spec_Multi.v
theories/Multi_Proofs.v
theories/Prop_Multi.v
theories/Theory_Sound.v
theories/Theory_Bool.v
theories/Comb_Bcp.v
theories/Theory_Level.v
theories/Lra_Watch.v
theories/Lra_Watch2.v
theories/Comb_Model.v
theories/Comb_Lra.v
theories/Theory_Toy.v
theories/Prop_Theory.v
theories/Terms_Model.v
theories/Spec_Terms.v
theories/Terms_Proofs.v
theories/TermMgr_Model.v
theories/Spec_TermMgr.v
theories/TermMgr_Base.v
theories/TermMgr_Bool.v
theories/TermMgr_Arith.v
theories/TermMgr_Eq.v
theories/TermMgr_Term.v
theories/Decimal_Model.v
theories/Spec_Decimal.v
theories/Decimal_Proofs.v
theories/TermMgr_Main.v
theories/Prop_Terms.v
theories/Visitor_Model.v
theories/Spec_Visitor.v
theories/Visitor_Proofs.v
theories/Rewriter_Model.v
theories/Spec_Rewriter.v
theories/Rewriter_Proofs.v
theories/Prop_Visitor.v
theories/Internalizer_Model.v
theories/Spec_Internalizer.v
theories/Internalizer_Proofs.v
theories/Internalizer_Step.v
theories/Internalizer_Main.v
theories/Prop_Internalizer.v
theories/Uf_Model.v
theories/Spec_Uf.v
theories/Uf_Proofs.v
theories/Uf_Confl.v
theories/Prop_Uf.v
theories/Lexer_Model.v
theories/Print_Model.v
theories/Spec_Print.v
theories/Print_Proofs.v
theories/Prop_Print.v
theories/Parser_Model.v
theories/Spec_Parser.v
theories/Parser_Scopes.v
theories/Parser_Proofs.v
theories/Parser_Sem.v
theories/Parser_Text.v
theories/Prop_Parser.v
theories/Script_Model.v
theories/Spec_Script.v
theories/Script_Proofs.v
theories/Script_Sem.v
theories/Script_Text.v
theories/Prop_Script.v
theories/Spec_Comb.v
theories/Comb_Final.v
theories/Prop_Comb.v
theories/Ufcomb_Model.v
theories/Ufcomb_Eq.v
theories/Ufcomb_Watch.v
theories/Ufcomb_Level.v
theories/Ufcomb_Final.v
theories/Check_Model.v
theories/Spec_Check.v
theories/Check_Proofs.v
theories/Prop_Check.v
theories/Gvorder_Model.v
theories/Gvorder_Proofs.v
theories/Gvorder_Run.v
theories/Prop_Gvorder.v
theories/Ufcheck_Model.v
theories/Spec_Ufcheck.v
theories/Ufcheck_Cancel.v
theories/Ufcheck_Proofs.v
theories/Prop_Ufcheck.v
theories/Prop_Wrong.v
theories/Dimacs_Model.v
theories/Spec_Dimacs.v
theories/Dimacs_Proofs.v
theories/Prop_Dimacs.v
theories/Dispatch_Model.v
theories/Prop_Dispatch.v
theories/Script_Noapps.v
theories/Tool_Model.v
theories/Spec_Tool.v
theories/Tool_Proofs.v
theories/Prop_Tool.v
theories/Theory_Safe.v
theories/Comb_Safe1.v
theories/Lra_Safe1.v
theories/Lra_Safe2.v
theories/Lra_Cut.v
theories/Lra_Cut2.v
theories/Lra_Cut3.v
theories/Lra_Safe3.v
theories/Lra_Safe4.v
theories/Lra_Safe5.v
theories/Lra_Safe6.v
theories/Lra_Shape.v
theories/Lra_Safe7.v
theories/Comb_Safe2.v
theories/Comb_Safe3.v
theories/Comb_Safe4.v
theories/Comb_Safe5.v
theories/Check_Safe.v
theories/Prop_Safe.v
theories/Ufcomb_Safe1.v
theories/Ufcomb_Safe2.v
theories/Ufcheck_Safe.v
theories/Prop_Ufsafe.v
theories/TermMgr_Unit.v
theories/Spec_Linear.v
theories/Parser_Linear.v
theories/Script_Linear.v
theories/Prop_Linear.v
theories/Again_Model.v
theories/Prop_Again.v
theories/Prop_Weak.v
theories/Fraction_Model.v
theories/Spec_Fraction.v
theories/Fraction_Proofs.v
theories/Prop_Fraction.v
theories/Pool_Model.v
theories/Pool_Inv.v
theories/Spec_Pool.v
theories/Pool_Proofs.v
theories/Pool_Move.v
theories/Pool_Step.v
theories/Prop_Pool.v
theories/Conobj_Model.v
theories/Spec_Conobj.v
theories/Conobj_Proofs.v
theories/Prop_Conobj.v
