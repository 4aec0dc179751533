-Q theories Verif
theories/Base.v
theories/M_Math.v
theories/M_Bell.v
theories/M_Change.v
theories/M_Row.v
theories/Spec_Row.v
theories/Spec_Change.v
theories/Spec_Cycle.v
theories/P_Math.v
theories/P_Row.v
theories/P_Bell.v
theories/P_Change.v
theories/P_Change2.v
theories/P_Change3.v
theories/P_Cycle.v
theories/P_Order.v
theories/P_Power.v
theories/P_RowText.v
theories/P_Conj.v
theories/P_Named.v
theories/M_Proof.v
theories/Spec_Proof.v
theories/P_Proof.v
theories/M_Pointers.v
theories/Spec_Pointers.v
theories/P_Pointers.v
theories/P_Pointers2.v
theories/P_Pointers3.v
theories/M_Dim.v
theories/Spec_Dim.v
theories/P_Dim.v
theories/M_Touch.v
theories/Spec_Touch.v
theories/P_Touch.v
theories/M_Extent.v
theories/Spec_Extent.v
theories/P_Perm.v
theories/P_Extent.v
theories/P_Extent2.v
theories/P_Extent3.v
theories/M_Group.v
theories/Spec_Group.v
theories/P_Group.v
theories/P_Group2.v
theories/P_Group3.v
theories/M_Multtab.v
theories/Spec_Multtab.v
theories/P_Multtab.v
theories/P_Multtab2.v
theories/M_PN.v
theories/Spec_PN.v
theories/P_PN.v
theories/M_Method.v
theories/Spec_Method.v
theories/P_Format.v
theories/P_Method.v
theories/P_Method2.v
theories/P_Method3.v
theories/M_MethClass.v
theories/M_False.v
theories/Spec_False.v
theories/P_False.v
theories/P_False2.v
theories/P_False3.v
theories/P_False4.v
theories/P_Group4.v
theories/M_Music.v
theories/Spec_Music.v
theories/Spec_Music2.v
theories/P_Music.v
theories/P_Music2.v
theories/P_Music3.v
theories/P_Music4.v
theories/P_Music5.v
theories/P_Music6.v
theories/P_Proof2.v
theories/P_Touch2.v
theories/M_Wild.v
theories/Spec_Wild.v
theories/P_Wild.v
theories/P_Wild2.v
theories/P_Wild3.v
theories/M_Search.v
theories/Spec_Search.v
theories/P_Search.v
theories/P_Search2.v
theories/P_Search3.v
theories/P_Search4.v
theories/P_Search5.v
theories/P_Search6.v
theories/Spec_MethClass.v
theories/P_MethClass.v
theories/P_MethClass2.v
theories/P_MethClass3.v
theories/P_MethClass4.v
theories/M_Landau.v
theories/Spec_Landau.v
theories/P_Landau.v
theories/P_Landau2.v
theories/P_Landau3.v
theories/P_Landau4.v
theories/M_Lhcode.v
theories/Spec_Lhcode.v
theories/P_Lhcode.v
theories/P_Lhcode2.v
theories/M_TSearch.v
theories/P_TSearch.v
theories/P_TSearch2.v
theories/P_TSearch3.v
theories/P_TSearch4.v
theories/P_TSearch5.v
theories/Spec_TSearch.v
theories/P_TSearch6.v
theories/M_Names.v
theories/Spec_Names.v
theories/P_Names.v
theories/M_Stream.v
theories/M_Litelib.v
theories/Spec_Litelib.v
theories/Spec_Litelib2.v
theories/P_Litelib.v
theories/P_Litelib2.v
theories/P_Litelib3.v
theories/Spec_Basename.v
theories/P_Basename.v
theories/M_Mslib.v
theories/Spec_Mslib.v
theories/P_Mslib.v
theories/M_Methodset.v
theories/Spec_Methodset.v
theories/P_Methodset.v
theories/M_Library.v
theories/Spec_Library.v
theories/P_Library.v
theories/M_Gsiril.v
theories/Spec_Gsiril.v
theories/P_Gsiril.v
theories/P_Gsiril2.v
theories/P_Gsiril3.v
theories/P_Gsiril4.v
theories/P_Gsiril5.v
theories/P_Gsiril6.v
theories/M_Parser.v
theories/Spec_Parser.v
theories/P_Parser.v
theories/P_Parser2.v
theories/P_Parser3.v
theories/P_Parser4.v
theories/M_Token.v
theories/Spec_Token.v
theories/P_Token.v
theories/P_Token2.v
theories/Spec_Command.v
theories/P_Command.v
theories/P_Lines.v
theories/M_Statement.v
theories/Spec_Statement.v
theories/P_Statement.v
theories/Spec_Run.v
theories/P_Run.v
theories/Spec_Session.v
theories/P_Session.v
theories/M_Literal.v
theories/Spec_Literal.v
theories/P_Literal.v
theories/P_Literal2.v
theories/M_RowCalc.v
theories/Spec_RowCalc.v
theories/P_RowCalc.v
theories/P_RowCalc2.v
theories/P_RowCalc3.v
theories/P_RowCalc4.v
theories/M_RowParse.v
theories/Spec_RowParse.v
theories/P_RowParse.v
theories/P_RowParse2.v
theories/P_RowParse3.v
theories/P_RowParse4.v
theories/Spec_RowParse2.v
theories/P_RowParse5.v
theories/P_RowParse6.v
theories/M_Support.v
theories/Spec_Support.v
theories/P_Support.v
theories/P_Support2.v
theories/M_ExtentApp.v
theories/M_Symmetry.v
theories/Spec_Symmetry.v
theories/P_Symmetry.v
theories/M_MethSearch.v
theories/P_MethSearch.v
theories/P_MethSearch2.v
theories/P_MethSearch3.v
theories/P_MethSearch4.v
theories/Spec_MethSearch.v
theories/P_MethSearch5.v
theories/P_MethSearch6.v
theories/P_MethSearch7.v
theories/P_MethSearch8.v
theories/I_MethSearch.v
theories/P_MethSearch9.v
theories/P_MethSearch10.v
theories/M_Splices.v
theories/Spec_Splices.v
theories/P_Splices.v
theories/P_Splices2.v
theories/P_Splices3.v
theories/P_Splices4.v
theories/P_Splices5.v
theories/P_Splices6.v
theories/M_LeadHeads.v
theories/Spec_LeadHeads.v
theories/P_LeadHeads.v
theories/P_LeadHeads2.v
theories/M_MethUtils.v
theories/Spec_MethUtils.v
theories/P_MethUtils.v
theories/P_MethUtils2.v
theories/M_HalfLead.v
theories/Spec_HalfLead.v
theories/P_HalfLead.v
theories/Props_Change.v
theories/Props_Row.v
theories/Props_Proof.v
theories/Props_Pointers.v
theories/Props_Dim.v
theories/Props_Touch.v
theories/Props_Extent.v
theories/Props_Group.v
theories/Props_Multtab.v
theories/Props_Method.v
theories/Props_False.v
theories/Props_More.v
theories/Props_Music.v
theories/Props_Wild.v
theories/Props_Search.v
theories/Props_MethClass.v
theories/Props_Landau.v
theories/Props_Lhcode.v
theories/Props_TSearch.v
theories/Props_Names.v
theories/Props_Basename.v
theories/Props_Litelib.v
theories/Props_Mslib.v
theories/Props_Methodset.v
theories/Props_Library.v
theories/Props_Gsiril.v
theories/Props_Parser.v
theories/Props_Token.v
theories/Props_Statement.v
theories/Props_Run.v
theories/Props_Literal.v
theories/Props_Script.v
theories/Props_RowCalc.v
theories/Props_RowParse.v
theories/Props_Support.v
theories/Props_ExtentApp.v
theories/Props_Symmetry.v
theories/Props_MethSearch.v
theories/Props_Splices.v
theories/Props_LeadHeads.v
theories/Props_MethUtils.v
theories/Props_HalfLead.v
