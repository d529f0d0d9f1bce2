-Q theories Verif
theories/Base.v
theories/Mesh.v
theories/Filters.v
theories/Drivers.v
theories/Samples.v
theories/Spec.v
theories/SpecSub.v
theories/Lists.v
theories/AddFace.v
theories/SplitTri.v
theories/Split.v
theories/Points.v
theories/Valid.v
theories/Run.v
theories/Update.v
theories/Struct.v
theories/Count.v
theories/Face.v
theories/Check.v
theories/FaceProps.v
theories/Properties1.v
theories/Refuted.v
theories/Conn.v
theories/Any.v
theories/Robust.v
theories/Hang.v
theories/Properties2.v
theories/SpecGeo.v
theories/Geo.v
theories/GeoProps.v
theories/CheckGeo.v
theories/Properties3.v
theories/Copy.v
theories/PtsAny.v
theories/SpecDrive.v
theories/Drive.v
theories/Area.v
theories/Cond.v
theories/DriveProps.v
theories/Iter.v
theories/Never.v
theories/CheckDrive.v
theories/Properties4.v
theories/SpecRenum.v
theories/Renum.v
theories/RenumProps.v
theories/CheckRenum.v
theories/Refuted2.v
theories/Properties5.v
theories/Root3.v
theories/Root3Run.v
theories/SpecRoot3.v
theories/Root3Main.v
theories/Root3Props.v
theories/CheckRoot3.v
theories/Properties6.v
theories/Twins.v
theories/Repeat.v
theories/Repeat3.v
theories/Truth.v
theories/Properties7.v
theories/Properties8.v
theories/Properties9.v
theories/Gaps.v
theories/Refuted3.v
theories/Properties10.v
theories/Sim.v
theories/SimProps.v
theories/Reach.v
theories/More.v
theories/Properties11.v
theories/SimId.v
theories/SpecFlt.v
theories/Flt.v
theories/FltRun.v
theories/FltBox.v
theories/FltLoop.v
theories/FltIter.v
theories/Properties12.v
theories/Refuted4.v
theories/SpecShape.v
theories/Shape.v
theories/Valence.v
theories/SpecLocal.v
theories/Local.v
theories/Properties13.v
theories/Refuted5.v
theories/Stuck.v
theories/Stuck64.v
theories/Properties14.v
theories/Refuted6.v
theories/FltLen.v
theories/FltTerm.v
theories/FltHeron.v
theories/FltArea.v
theories/Properties15.v
theories/SpecConv.v
theories/Conv.v
theories/Properties16.v
theories/CondLoop.v
theories/Rounds.v
theories/Properties17.v
theories/SpecSession.v
theories/Session.v
theories/CondRoot3.v
theories/Properties18.v
theories/Properties19.v
theories/SpecEndless.v
theories/Endless.v
theories/EndlessReal.v
theories/Endless64.v
theories/Properties20.v
theories/Properties21.v
theories/EndlessLoop.v
theories/EndlessLoopReal.v
theories/EndlessLoop64.v
theories/Properties22.v
theories/CondButterfly.v
theories/Properties23.v
theories/SpecLimit.v
theories/LoopLimit.v
theories/Properties24.v
theories/SpecPoly.v
theories/PolyProps.v
theories/Properties25.v
theories/FltTermLoop.v
theories/Properties26.v
theories/SpecNum.v
theories/NumProps.v
theories/Properties27.v
theories/SpecNum3.v
theories/Num3Props.v
theories/Properties30.v
theories/SimDrive.v
theories/SpecSimil.v
theories/Simil.v
theories/Properties28.v
theories/SpecMirror.v
theories/Mirror.v
theories/SpecAxes.v
theories/Axes.v
theories/CheckImage.v
theories/Properties29.v
theories/SpecSame.v
theories/Same.v
theories/CheckSame.v
theories/Properties31.v
theories/Piece.v
theories/PieceRun.v
theories/CheckPiece.v
theories/Properties32.v
theories/SpecTurn.v
theories/Turn.v
theories/CheckTurn.v
theories/Properties33.v
theories/CondSame.v
theories/CondSame3.v
theories/Properties34.v
theories/CondPiece.v
theories/CondPiece3.v
theories/Properties35.v
theories/SameAny.v
theories/CondAny.v
theories/AnyFlt.v
theories/CheckAny.v
theories/Properties36.v
theories/TurnAny.v
theories/CheckTurnAny.v
theories/Properties37.v
