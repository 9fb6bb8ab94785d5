-Q theories Verif
theories/Base.v
theories/Types.v
theories/Codec.v
theories/Handle.v
theories/Receive.v
theories/ClientSend.v
theories/Client.v
theories/ServerSend.v
theories/Server.v
theories/SpecFraming.v
theories/SpecClient.v
theories/SpecServer.v
theories/SpecDrive.v
theories/ReceiveProofs.v
theories/ClientRecv.v
theories/ServerRecv.v
theories/ServerAbs.v
theories/ServerInv.v
theories/ServerProps.v
theories/ServerLive.v
theories/ServerDet.v
theories/ServerBad.v
theories/ServerThms.v
theories/ClientAbs.v
theories/ClientInv.v
theories/ClientProps.v
theories/ClientDet.v
theories/ClientLive.v
theories/ToyCodec.v
theories/ToyLaws.v
theories/ClientThms.v
theories/ClientExamples.v
theories/ServerExamples.v
theories/ServerRefute.v
theories/HandleProc.v
theories/TagGen.v
theories/IdProofs.v
theories/HandleRuns.v
theories/Stream.v
theories/StreamMachine.v
theories/SpecStream.v
theories/StreamProofs.v
theories/StreamThms.v
theories/StreamTls.v
theories/StreamTlsSend.v
theories/StreamState.v
theories/StreamServer.v
theories/StreamEvents.v
theories/StreamUpgrade.v
theories/StreamStuck.v
theories/StreamCipher.v
theories/ToyTls.v
theories/ProxyUtil.v
theories/Proxy.v
theories/SpecProxy.v
theories/ProxyFilter.v
theories/ProxyEffect.v
theories/ProxyProofs.v
theories/ProxyInv.v
theories/ProxyRuns.v
theories/PropertiesClient.v
theories/PropertiesServer.v
theories/PropertiesIds.v
theories/PropertiesStream.v
theories/ProxyWire.v
theories/PropertiesProxy.v
theories/System.v
theories/SystemAbs.v
theories/SpecSystem.v
theories/SystemResp.v
theories/SystemLog.v
theories/SystemPos.v
theories/SystemStage.v
theories/SystemServer.v
theories/SystemClient.v
theories/SystemThms.v
theories/SystemExamples.v
theories/SystemRefute.v
theories/PropertiesSystem.v
theories/SpecSystemLive.v
theories/SystemLive.v
theories/SystemGreet.v
theories/SystemSettle.v
theories/PropertiesSystemLive.v
theories/Net.v
theories/SpecNet.v
theories/NetProofs.v
theories/NetSystem.v
theories/NetApp.v
theories/NetRest.v
theories/NetThms.v
theories/NetStall.v
theories/NetLive.v
theories/NetExamples.v
theories/PropertiesNet.v
theories/SpecViews.v
theories/SystemViews.v
theories/NetViews.v
theories/PropertiesViews.v
theories/Relay.v
theories/SpecRelay.v
theories/RelayProofs.v
theories/RelayTalk.v
theories/ClientFit.v
theories/RelayFit.v
theories/RelayGlue.v
theories/RelayInv.v
theories/RelayOrder.v
theories/RelaySteps.v
theories/RelayOrderly.v
theories/RelayThms.v
theories/RelayEnd.v
theories/RelayWork.v
theories/RelayPassed.v
theories/RelayLive.v
theories/RelayCalm.v
theories/RelayExamples.v
theories/PropertiesRelay.v
theories/Options.v
theories/OptionsProofs.v
theories/PropertiesOptions.v
theories/Service.v
theories/SpecService.v
theories/ServiceProofs.v
theories/ServiceHandles.v
theories/ServiceDiffer.v
theories/PropertiesService.v
theories/Apps.v
theories/SpecApps.v
theories/AppsProofs.v
theories/AppsClient.v
theories/AppsServer.v
theories/AppsStd.v
theories/AppsSays.v
theories/AppsNet.v
theories/AppsPairs.v
theories/AppsLive.v
theories/AppsExamples.v
theories/PropertiesApps.v
theories/PropertiesAppsNet.v
theories/Testers.v
theories/SpecTests.v
theories/TesterProofs.v
theories/TestRuns.v
theories/Tests.v
theories/TestChecks.v
theories/TestsClient.v
theories/TestsServer.v
theories/TestsServer2.v
theories/TestsPair.v
theories/TestSizes.v
theories/PropertiesTests.v
